(** Proofs for C58: the order of the blocks and the translation of the opcodes. *)
From Verif Require Import Base Lexical SymExecModel AsmModel DepsModel SpecModel UtilModel UtilProps UnifyProps LiveModel CfgModel CfgProps JumpModel ObjSem ParseModel ParseSpec ParseProofs.
Notation lookup := UtilModel.lookup.
Notation successors := CfgModel.successors.
Notation dfs := ParseModel.dfs.
Open Scope string_scope. Open Scope list_scope.

(** ** The depth-first search *)
Definition closed_list (g : clist) : Prop := forall x k y, lookup x (cl_blocks g) = Some k -> In y (successors k) -> In y (map fst (cl_blocks g)).
Lemma successors_two k : length (successors k) <= 2.
Proof. unfold CfgModel.successors. destruct (cb_jump_to k), (cb_falls_to k); cbn; lia. Qed.
Lemma dfs_loop_ok g : closed_list g -> forall fuel visited stack,
  NoDup visited -> incl visited (map fst (cl_blocks g)) -> incl stack (map fst (cl_blocks g)) ->
  (forall x k y, In x visited -> lookup x (cl_blocks g) = Some k -> In y (successors k) -> In y visited \/ In y stack) ->
  length stack + 3 * (length (cl_blocks g) - length visited) <= fuel ->
  exists order, dfs_loop fuel g visited stack = Ok order /\ NoDup order /\ incl order (map fst (cl_blocks g)) /\ incl visited order /\ incl stack order
    /\ forall x k y, In x order -> lookup x (cl_blocks g) = Some k -> In y (successors k) -> In y order.
Proof.
  intros C fuel. induction fuel as [|fuel IH]; intros visited stack ND V St Cl F.
  - destruct stack; [|cbn in F; lia]. cbn. exists (rev visited). split; [reflexivity|]. split; [apply NoDup_rev; exact ND|].
    split; [intros x H; apply in_rev in H; auto|]. split; [intros x H; apply in_rev; rewrite rev_involutive; exact H|]. split; [intros x []|].
    intros x k y Hx L Hy. apply in_rev in Hx. destruct (Cl _ _ _ Hx L Hy) as [H|[]]. apply in_rev. rewrite rev_involutive. exact H.
  - destruct stack as [|x stack].
    { cbn. exists (rev visited). split; [reflexivity|]. split; [apply NoDup_rev; exact ND|].
      split; [intros x H; apply in_rev in H; auto|]. split; [intros x H; apply in_rev; rewrite rev_involutive; exact H|]. split; [intros x []|].
      intros x k y Hx L Hy. apply in_rev in Hx. destruct (Cl _ _ _ Hx L Hy) as [H|[]]. apply in_rev. rewrite rev_involutive. exact H. }
    cbn [dfs_loop]. destruct (mem x visited) eqn:M.
    + apply mem_In in M. destruct (IH visited stack ND V) as (order & R & H1 & H2 & H3 & H4 & H5).
      * intros y Hy. apply St. right. exact Hy.
      * intros a k y Ha L Hy. destruct (Cl _ _ _ Ha L Hy) as [Q|[<-|Q]]; auto.
      * cbn [length] in F. lia.
      * exists order. split; [exact R|]. split; [exact H1|]. split; [exact H2|]. split; [exact H3|]. split; [|exact H5]. intros y [<-|Hy]; auto.
    + assert (N : ~ In x visited) by (intros Q; apply mem_In in Q; congruence).
      assert (Kx : In x (map fst (cl_blocks g))) by (apply St; left; reflexivity). destruct (key_lookup _ _ Kx) as (k & L).
      unfold get_block. rewrite L. cbn [of_option bind].
      assert (Le : length (x :: visited) <= length (cl_blocks g)).
      { rewrite <- (map_length fst (cl_blocks g)). apply NoDup_incl_length; [constructor; assumption|]. intros y [<-|Hy]; auto. }
      destruct (IH (x :: visited) (successors k ++ stack)) as (order & R & H1 & H2 & H3 & H4 & H5).
      * constructor; assumption.
      * intros y [<-|Hy]; auto.
      * intros y Hy. apply in_app_iff in Hy as [Hy|Hy]; [eapply C; eassumption|apply St; right; exact Hy].
      * intros a k' y [<-|Ha] La Hy.
        -- rewrite L in La. injection La as <-. right. apply in_app_iff. auto.
        -- destruct (Cl _ _ _ Ha La Hy) as [Q|[<-|Q]]; [left; right; exact Q|left; left; reflexivity|right; apply in_app_iff; auto].
      * pose proof (successors_two k). rewrite app_length. cbn [length] in F, Le |- *. lia.
      * exists order. split; [exact R|]. split; [exact H1|]. split; [exact H2|]. split; [intros y Hy; apply H3; right; exact Hy|].
        split; [|exact H5]. intros y [<-|Hy]; [apply H3; left; reflexivity|apply H4, in_app_iff; auto].
Qed.
Lemma dfs_ends nm g : closed_list g -> In (block_name nm "Block0") (map fst (cl_blocks g)) ->
  exists order, dfs nm g = Ok order /\ NoDup order /\ incl order (map fst (cl_blocks g)) /\ In (block_name nm "Block0") order
    /\ forall x k y, In x order -> lookup x (cl_blocks g) = Some k -> In y (successors k) -> In y order.
Proof.
  intros C B. destruct (dfs_loop_ok g C (dfs_fuel g) [] [block_name nm "Block0"]) as (order & R & H1 & H2 & _ & H4 & H5).
  - constructor.
  - intros ? [].
  - intros x [<-|[]]. exact B.
  - intros ? ? ? [].
  - unfold dfs_fuel. cbn [length]. lia.
  - exists order. split; [exact R|]. split; [exact H1|]. split; [exact H2|]. split; [apply H4; left; reflexivity|exact H5].
Qed.

(** ** Instructions *)
Definition number (ind : list (string * nat)) (x : string) : Z := match lookup x ind with Some p => (2 ^ 64 - 1 - Z.of_nat p)%Z | None => 0%Z end.
Definition text (keys : list (string * nat)) (index : string -> Z) (x : string) : string := fmt_064X (match lookup x keys with Some n => Z.of_nat n | None => index x end).
Definition first (l : option (list string)) : string := match l with Some (x :: _) => x | _ => "" end.
Definition translated (keys : list (string * nat)) (index : string -> Z) (self : string) (i : linstr) : linstr :=
  if String.eqb (li_op i) "linkersymbol" then relabel "pushlib" (li_lits i) i
  else if String.eqb (li_op i) "memoryguard" then relabel "push" (option_map (map (fun o => match py_int16 o with Some z => py_hex z | None => "" end)) (li_lits i)) i
  else if String.eqb (li_op i) "datasize" then relabel (if String.eqb (first (li_lits i)) self then "pushsize" else "push #[$]") (Some [text keys index (first (li_lits i))]) i
  else if String.eqb (li_op i) "dataoffset" then relabel "push [$]" (Some [text keys index (first (li_lits i))]) i
  else if String.eqb (li_op i) "datacopy" then relabel "codecopy" (li_lits i) i
  else if String.eqb (li_op i) "setimmutable" then relabel "assignimmutable" (li_lits i) i
  else if String.eqb (li_op i) "loadimmutable" then relabel "pushimmutable" (li_lits i) i
  else i.
Definition extends (d d' : list (string * nat)) : Prop := forall k v, lookup k d = Some v -> lookup k d' = Some v.
Lemma extends_trans a b c : extends a b -> extends b c -> extends a c. Proof. unfold extends. auto. Qed.
(** Every name that [i] refers to has a number in [d], or is a sub-object. *)
Definition recorded (keys d : list (string * nat)) (i : linstr) : Prop :=
  In (li_op i) ["datasize"; "dataoffset"] -> lookup (first (li_lits i)) keys = None -> lookup (first (li_lits i)) d <> None.
Lemma recorded_extends keys d d' i : extends d d' -> recorded keys d i -> recorded keys d' i.
Proof. intros E R A B. specialize (R A B). destruct (lookup (first (li_lits i)) d) as [v|] eqn:L; [|contradiction]. rewrite (E _ _ L). discriminate. Qed.
Lemma name_number keys d x z d' : name_index keys d x = Some z -> extends d d' -> fmt_064X z = text keys (number d') x.
Proof.
  unfold name_index, text, number. intros H E. destruct (lookup x keys); [congruence|]. destruct (lookup x d) as [p|] eqn:L; [|discriminate].
  rewrite (E _ _ L). cbn [option_map] in H. assert (Q : z = (2 ^ 64 - 1 - Z.of_nat p)%Z) by congruence. rewrite Q. reflexivity.
Qed.
Lemma translate_opcode_ok keys self st i : ind_ok st -> literals_ok keys (li_op i) (li_lits i) -> exists st', ind_ok st' /\ extends (snd st) (snd st')
  /\ recorded keys (snd st') i /\ forall d, extends (snd st') d -> translate_opcode keys self st i = Ok (translated keys (number d) self i, st').
Proof.
  intros I [H1 H2 H3]. unfold translate_opcode, translated, recorded.
  assert (Same : forall P : Prop, P -> ind_ok st /\ extends (snd st) (snd st) /\ P) by (intros P p; split; [exact I|]; split; [intros ? ? Q; exact Q|exact p]).
  destruct (String.eqb_spec (li_op i) "linkersymbol") as [E|N1].
  { specialize (H1 E). destruct (li_lits i) as [l|]; [|contradiction]. exists st. apply Same. split; [rewrite E; intros [Q|[Q|[]]]; discriminate|]. reflexivity. }
  destruct (String.eqb_spec (li_op i) "memoryguard") as [E|N2].
  { destruct (H2 E) as (l & -> & F). exists st. apply Same. split; [rewrite E; intros [Q|[Q|[]]]; discriminate|]. intros d _. cbn [of_option bind option_map].
    rewrite (map_result_total _ (fun o => match py_int16 o with Some z => py_hex z | None => "" end)); [reflexivity|]. intros o Ho. rewrite Forall_forall in F. specialize (F o Ho).
    destruct (py_int16 o); [reflexivity|contradiction]. }
  destruct (String.eqb_spec (li_op i) "datasize") as [E|N3].
  { destruct H3 as (x & r & L & R); [rewrite E; left; reflexivity|]. rewrite L. cbn [of_option bind hd_error first]. unfold translate_datasize.
    destruct (object_index keys st x) as [z st'] eqn:O. destruct (object_index_step _ _ _ _ _ I R O) as (I' & Nz & M & _). exists st'. split; [exact I'|]. split; [exact M|].
    split; [|intros d Ed; rewrite (name_number _ _ _ _ _ Nz Ed); do 3 f_equal; destruct R as [R|R]; [destruct (lookup x keys); [reflexivity|contradiction]|destruct (lookup x keys); [reflexivity|]; destruct (find_dot x) as [[|[|]]|]; [reflexivity|contradiction|reflexivity..]]]. intros _ Q. unfold name_index in Nz. rewrite Q in Nz. destruct (lookup x (snd st')); [discriminate|discriminate Nz]. }
  destruct (String.eqb_spec (li_op i) "dataoffset") as [E|N4].
  { destruct H3 as (x & r & L & R); [rewrite E; right; left; reflexivity|]. rewrite L. cbn [of_option bind hd_error first]. unfold translate_dataoffset.
    destruct (object_index keys st x) as [z st'] eqn:O. destruct (object_index_step _ _ _ _ _ I R O) as (I' & Nz & M & _). exists st'. split; [exact I'|]. split; [exact M|].
    split; [|intros d Ed; rewrite (name_number _ _ _ _ _ Nz Ed); reflexivity]. intros _ Q. unfold name_index in Nz. rewrite Q in Nz. destruct (lookup x (snd st')); [discriminate|discriminate Nz]. }
  exists st. apply Same. split; [intros [Q|[Q|[]]]; [symmetry in Q|symmetry in Q]; contradiction|]. intros d _.
  destruct (_ =? "datacopy"); [reflexivity|]. destruct (_ =? "setimmutable"); [reflexivity|]. destruct (_ =? "loadimmutable"); reflexivity.
Qed.
Lemma translate_instrs_ok keys self is : forall st, ind_ok st -> Forall (fun i => literals_ok keys (li_op i) (li_lits i)) is -> exists st', ind_ok st' /\ extends (snd st) (snd st')
  /\ Forall (recorded keys (snd st')) is /\ forall d, extends (snd st') d -> translate_instrs keys self st is = Ok (map (translated keys (number d) self) is, st').
Proof.
  induction is as [|i is IH]; intros st I F; cbn [translate_instrs].
  - exists st. split; [exact I|]. split; [intros ? ? Q; exact Q|]. split; [constructor|reflexivity].
  - inversion F as [|? ? F1 F2]; subst. destruct (translate_opcode_ok keys self st i I F1) as (st1 & I1 & E1 & R1 & T1).
    destruct (IH st1 I1 F2) as (st2 & I2 & E2 & R2 & T2). exists st2. split; [exact I2|]. split; [eapply extends_trans; eassumption|].
    split; [constructor; [eapply recorded_extends; eassumption|exact R2]|]. intros d Ed. rewrite (T1 d) by (eapply extends_trans; eassumption). cbn [bind fst snd].
    rewrite (T2 d Ed). reflexivity.
Qed.

(** ** Blocks *)
Definition translate_step keys self := fun (gs : clist * idx_state) x =>
  do b <- get_block x (fst gs);
  do t <- translate_instrs keys self (snd gs) (cb_instrs b);
  Ok (put_block x (set_instrs (fst t) b) (fst gs), snd t).
Lemma translate_steps keys self todo : forall g st, ind_ok st -> NoDup todo ->
  (forall x, In x todo -> exists k, lookup x (cl_blocks g) = Some k /\ Forall (fun i => literals_ok keys (li_op i) (li_lits i)) (cb_instrs k)) ->
  exists g' st', for_each (translate_step keys self) todo (g, st) = Ok (g', st') /\ ind_ok st' /\ extends (snd st) (snd st')
    /\ map fst (cl_blocks g') = map fst (cl_blocks g) /\ cl_start g' = cl_start g
    /\ (forall x, ~ In x todo -> lookup x (cl_blocks g') = lookup x (cl_blocks g))
    /\ (forall x k, In x todo -> lookup x (cl_blocks g) = Some k -> Forall (recorded keys (snd st')) (cb_instrs k)
        /\ forall d, extends (snd st') d -> lookup x (cl_blocks g') = Some (set_instrs (map (translated keys (number d) self) (cb_instrs k)) k)).
Proof.
  induction todo as [|x todo IH]; intros g st I ND H; cbn [for_each].
  - exists g, st. split; [reflexivity|]. split; [exact I|]. split; [intros ? ? Q; exact Q|]. split; [reflexivity|]. split; [reflexivity|]. split; [reflexivity|]. intros ? ? [].
  - inversion ND as [|? ? N1 N2]; subst. destruct (H x (or_introl eq_refl)) as (k & L & F). unfold translate_step at 1. cbn [fst snd]. unfold get_block. rewrite L. cbn [of_option bind].
    destruct (translate_instrs_ok keys self _ st I F) as (st1 & I1 & E1 & R1 & T1). rewrite (T1 (snd st1)) by (intros ? ? Q; exact Q). cbn [bind fst snd].
    set (k1 := set_instrs _ k). destruct (put_shape x k1 g) as (S1 & S2 & _); [eapply lookup_In_key; exact L|].
    assert (Lk : forall y, lookup y (cl_blocks (put_block x k1 g)) = if String.eqb x y then Some k1 else lookup y (cl_blocks g)) by (intros y; cbn [put_block cl_blocks]; apply lookup_dict_set).
    destruct (IH (put_block x k1 g) st1 I1 N2) as (g' & st' & R & I' & E' & K' & St' & Out & In_).
    + intros y Hy. rewrite Lk. destruct (String.eqb_spec x y) as [->|]; [contradiction|]. apply H. right. exact Hy.
    + exists g', st'. split; [exact R|]. split; [exact I'|]. split; [eapply extends_trans; eassumption|]. split; [congruence|]. split; [congruence|]. split.
      * intros y Hy. rewrite Out by (intros Q; apply Hy; right; exact Q). rewrite Lk. destruct (String.eqb_spec x y) as [->|]; [exfalso; apply Hy; left; reflexivity|reflexivity].
      * intros y ky [<-|Hy] Ly.
        -- rewrite L in Ly. injection Ly as <-. split; [eapply Forall_impl; [|exact R1]; intros i; apply recorded_extends; exact E'|].
           intros d Ed. rewrite (Out x N1), Lk, String.eqb_refl. unfold k1.
           pose proof (T1 (snd st1) (fun _ _ Q => Q)) as A. pose proof (T1 d (extends_trans _ _ _ E' Ed)) as B. rewrite A in B.
           assert (Q : map (translated keys (number (snd st1)) self) (cb_instrs k) = map (translated keys (number d) self) (cb_instrs k)) by congruence. rewrite Q. reflexivity.
        -- assert (D : String.eqb x y = false) by (apply String.eqb_neq; intros ->; contradiction). apply In_; [exact Hy|]. rewrite Lk, D. exact Ly.
Qed.
