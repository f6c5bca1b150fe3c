(** Proofs for C58: a component as a whole. *)
From Verif Require Import Base Lexical SymExecModel AsmModel DepsModel SpecModel UtilModel UtilProps UnifyProps LiveModel CfgModel CfgProps JumpModel ObjSem ParseModel ParseSpec ParseProofs ParseTranslate.
Notation lookup := UtilModel.lookup.
Notation successors := CfgModel.successors.
Notation dfs := ParseModel.dfs.
Open Scope string_scope. Open Scope list_scope.

(** The translation with the numbers it gives. *)
Definition translation keys nm self (g : clist) : result (clist * idx_state) :=
  do order <- dfs nm g; for_each (translate_step keys self) (rev order) (g, (0, [])).
Lemma translate_opcodes_eq keys nm self g : translate_opcodes keys nm self g = do r <- translation keys nm self g; Ok (fst r).
Proof. unfold translate_opcodes, translation. destruct (dfs nm g); reflexivity. Qed.
Definition numbers keys nm self (bs : list jsblock) : list (string * nat) :=
  match (do st <- for_each (ParseModel.parse_step nm) bs (empty_list, []); translation keys nm self (fst st)) with Ok r => snd (snd r) | Raise _ => [] end.
Definition rewritten (builtin : bool) keys nm self bs (i : linstr) : linstr :=
  if builtin then i else translated keys (number (numbers keys nm self bs)) self i.

Lemma find_ids bs b : In b bs -> forall x, js_id b = Some x -> In x (ids_of bs).
Proof. intros H x E. unfold ids_of. apply in_flat_map. exists b. split; [exact H|]. rewrite E. left. reflexivity. Qed.
Lemma ids_find bs x : In x (ids_of bs) -> exists b, find (has_id x) bs = Some b /\ In b bs.
Proof.
  induction bs as [|b bs IH]; cbn [ids_of flat_map]; [intros []|]. intros H. cbn [find]. destruct (has_id x b) eqn:Hx; [exists b; split; [reflexivity|left; reflexivity]|].
  destruct IH as (b' & F & I); [|exists b'; split; [exact F|right; exact I]]. apply in_app_iff in H as [H|H]; [|exact H].
  unfold has_id in Hx. destruct (js_id b) as [y|]; [|destruct H]. destruct H as [->|[]]. rewrite String.eqb_refl in Hx. discriminate.
Qed.
Lemma image_successors nm f b k x t : image nm f b k -> js_exit b = Some x -> In t (continues x) -> In (block_name nm t) (successors k).
Proof.
  intros [(x' & E & X & _) _] E' H. rewrite E in E'. injection E' as ->. unfold continues in H. unfold CfgModel.successors.
  destruct X as [t0 T N _ J Fl|f0 t0 y T N0 N1 _ _ _ J Fl|T _ J Fl|t0 T I _ J Fl|vs T _ _ J Fl]; rewrite T in H.
  - cbn in H. destruct (jx_targets x) as [|a l]; [discriminate|]. injection N as ->. destruct H as [<-|[]]. rewrite J. left. reflexivity.
  - cbn in H. destruct (jx_targets x) as [|a [|a' l]]; [discriminate|discriminate|]. injection N0 as ->. injection N1 as ->. rewrite J, Fl. destruct H as [<-|[<-|[]]]; cbn; auto.
  - destruct H.
  - destruct I as [<-|[<-|[]]]; destruct H.
  - destruct H.
Qed.
Lemma successors_targets nm f b k x y : image nm f b k -> js_exit b = Some x -> In y (successors k) -> exists t, y = block_name nm t /\ In t (jx_targets x).
Proof.
  intros [(x' & E & X & _) _] E' H. rewrite E in E'. injection E' as ->. unfold CfgModel.successors in H.
  destruct X as [t0 T N _ J Fl|f0 t0 c T N0 N1 _ _ _ J Fl|T _ J Fl|t0 T I _ J Fl|vs T _ _ J Fl]; rewrite J, Fl in H; cbn in H.
  - destruct H as [<-|[]]. exists t0. split; [reflexivity|]. eapply nth_error_In. exact N.
  - destruct H as [<-|[<-|[]]]; [exists t0|exists f0]; (split; [reflexivity|]); eapply nth_error_In; eassumption.
  - destruct H.
  - destruct H.
  - destruct H.
Qed.

Section Component.
Variables (builtin : bool) (keys : list (string * nat)) (fs : list string) (self nm : string) (o : jobject) (c : option string).
Notation bs := (jblocks o c).
Hypothesis OK : jcomponent_ok builtin keys fs (jentry o c) bs.
Notation bn := (block_name nm).
Lemma block_good x b : jblock_at o c x = Some b -> jblock_ok builtin keys fs (ids_of bs) b /\ js_id b = Some x.
Proof.
  intros H. unfold jblock_at in H. apply find_some in H as [I H]. split; [pose proof (co_blocks _ _ _ _ _ OK) as F; rewrite Forall_forall in F; apply F; exact I|].
  unfold has_id in H. destruct (js_id b); [|discriminate]. apply String.eqb_eq in H. congruence.
Qed.
Lemma reached_blocks x : jreached o c x -> exists b, jblock_at o c x = Some b.
Proof.
  intros R. assert (I : In x (ids_of bs)).
  { destruct R as [s E|a b e t _ B X T].
    - destruct (co_start _ _ _ _ _ OK) as (s' & H & E' & _). assert (s = s') by congruence. subst. destruct (ids_of bs); [discriminate|]. injection H as ->. left. reflexivity.
    - destruct (block_good _ _ B) as [[_ _ _ (x' & X' & XO)] _]. rewrite X in X'. injection X' as <-. unfold continues in T.
      assert (T' : In t (jx_targets e)). { assert (Fn : forall n l, In t (firstn n l) -> In t l) by (intros n l Q; rewrite <- (firstn_skipn n l); apply in_app_iff; auto).
        destruct (jx_type e); [|destruct T]. destruct (_ =? "Jump"); [apply (Fn 1); exact T|]. destruct (_ =? "ConditionalJump"); [apply (Fn 2); exact T|destruct T]. }
      destruct XO as [? ? ? ? I|? ? ? ? ? ? ? I|? ? ? I|? ? ? I]; apply I; exact T'. }
  destruct (ids_find _ _ I) as (b & F & _). exists b. exact F.
Qed.
Lemma literals_good b i : jblock_ok builtin keys fs (ids_of bs) b -> builtin = false -> In i (jinstrs b) -> literals_ok keys (li_op (plain i)) (li_lits (plain i)).
Proof.
  intros [_ _ (phis & rest & E & _ & _ & F) _] B I. unfold jinstrs in I. rewrite E in I. rewrite Forall_forall in F. apply (io_literals _ _ _ _ (F _ I)). exact B.
Qed.
Lemma component_ok : exists g, parser_block_list builtin keys nm self bs = Ok g
  /\ (exists s, jentry o c = Some s /\ cl_start g = Some (bn s))
  /\ (forall x b, jreached o c x -> jblock_at o c x = Some b -> exists k, lookup (bn x) (cl_blocks g) = Some k /\ image nm (rewritten builtin keys nm self bs) b k)
  /\ (builtin = false -> exists next, ind_ok (next, numbers keys nm self bs)
      /\ forall x b i, jreached o c x -> jblock_at o c x = Some b -> In i (jinstrs b) -> recorded keys (numbers keys nm self bs) (plain i)).
Proof.
  destruct (parse_steps nm _ _ _ _ bs empty_list [] (co_blocks _ _ _ _ _ OK) (co_ids _ _ _ _ _ OK)) as (g1 & d & R1 & K1 & S1 & _ & L1 & D1); [reflexivity|reflexivity|].
  cbn [empty_list cl_blocks map app] in K1, S1, D1.
  destruct (co_start _ _ _ _ _ OK) as (s & Hs & Es & B0). rewrite Hs in S1. cbn [option_map] in S1.
  assert (Dk : forall k, In k (map fst d) -> In k (map fst (cl_blocks g1))) by (intros k Hk; rewrite K1; destruct (D1 k Hk) as [[]|H]; exact H).
  unfold parser_block_list, rewritten, numbers. rewrite R1. cbn [bind fst snd]. destruct (Bool.bool_dec builtin true) as [Bt|Bf]; [|apply not_true_is_false in Bf].
  - replace (if builtin then Ok g1 else translate_opcodes keys nm self g1) with (Ok g1) by (rewrite Bt; reflexivity). cbn [bind].
    destruct (update_comes_from_ok d g1 Dk) as (g2 & R2 & A2 & A3 & A4). exists g2. split; [exact R2|]. split; [exists s; split; [exact Es|congruence]|]. split.
    + intros x b _ Hb. destruct (L1 _ _ Hb) as (k & L & Im). destruct (A4 _ _ L) as (k' & L' & A). exists k'. split; [exact L'|]. eapply alike_image; [exact A|].
      rewrite Bt. exact Im.
    + intros Q. congruence.
  - assert (Ids : forall y, In y (map fst (cl_blocks g1)) -> exists x b k, y = bn x /\ jblock_at o c x = Some b /\ lookup y (cl_blocks g1) = Some k /\ image nm (fun i => i) b k).
    { intros y Hy. rewrite K1 in Hy. apply in_map_iff in Hy as (x & <- & Hx). destruct (ids_find _ _ Hx) as (b & F & _). destruct (L1 _ _ F) as (k & L & Im). exists x, b, k. auto. }
    assert (C1 : closed_list g1).
    { intros y k z L Hz. destruct (Ids y) as (x & b & k' & -> & Hb & L' & Im); [eapply lookup_In_key; exact L|]. rewrite L in L'. injection L' as <-.
      destruct (block_good _ _ Hb) as [[_ _ _ (e & X & XO)] _]. destruct (successors_targets _ _ _ _ _ _ Im X Hz) as (t & -> & Ht). rewrite K1. apply in_map.
      destruct XO as [? ? ? ? I|? ? ? ? ? ? ? I|? ? ? I|? ? ? I]; apply I; exact Ht. }
    assert (Z0 : In (bn "Block0") (map fst (cl_blocks g1))). { rewrite K1. apply in_map. rewrite <- (B0 Bf). destruct (ids_of bs); [discriminate|]. injection Hs as ->. left. reflexivity. }
    destruct (dfs_ends nm g1 C1 Z0) as (order & RD & ND & Io & Bo & Co).
    destruct (translate_steps keys self (rev order) g1 (0, [])) as (g2 & st & RT & I2 & _ & K2 & S2 & Out & In_).
    { constructor; [reflexivity|reflexivity|constructor]. }
    { apply NoDup_rev. exact ND. }
    { intros y Hy. apply in_rev in Hy. destruct (Ids y (Io _ Hy)) as (x & b & k & -> & Hb & L & Im). exists k. split; [exact L|].
      destruct Im as [(e & X & _ & ->) _]. rewrite map_id. apply Forall_app. split.
      - apply Forall_forall. intros i Hi. apply in_map_iff in Hi as (j & <- & Hj). eapply literals_good; [exact (proj1 (block_good _ _ Hb))|exact Bf|exact Hj].
      - unfold ending. destruct (jx_type e); [|constructor]. destruct (_ =? "FunctionReturn"); [|constructor]. constructor; [|constructor].
        cbn. constructor; [discriminate|discriminate|]. intros [Q|[Q|[]]]; discriminate. }
    assert (T : translation keys nm self g1 = Ok (g2, st)) by (unfold translation; rewrite RD; exact RT).
    replace (if builtin then Ok g1 else translate_opcodes keys nm self g1) with (Ok g2).
    2: { rewrite Bf, translate_opcodes_eq, T. reflexivity. }
    cbn [bind]. rewrite T. cbn [snd].
    destruct (update_comes_from_ok d g2) as (g3 & R3 & A2 & A3 & A4); [intros k Hk; rewrite K2; apply Dk; exact Hk|]. exists g3. split; [exact R3|].
    assert (Ro : forall x, jreached o c x -> In (bn x) (rev order)).
    { intros x R. rewrite <- in_rev. induction R as [s' E|a b e t Ra IH B X Ht]; [assert (s' = s) by congruence; subst s'; rewrite (B0 Bf); exact Bo|].
      destruct (L1 _ _ B) as (k & L & Im). eapply Co; [exact IH|exact L|]. eapply image_successors; eassumption. }
    split; [exists s; split; [exact Es|congruence]|]. split.
    + intros x b R Hb. destruct (L1 _ _ Hb) as (k & L & Im). destruct (In_ _ _ (Ro _ R) L) as (_ & Tr). specialize (Tr (snd st) (fun _ _ Q => Q)).
      destruct (A4 _ _ Tr) as (k' & L' & A). exists k'. split; [exact L'|]. eapply alike_image; [exact A|]. rewrite Bf.
      destruct Im as [(e & X & Ei & In2) En]. split; [|exact En]. exists e. split; [exact X|]. split; [|cbn [set_instrs cb_instrs]; rewrite In2, map_id; reflexivity].
      destruct Ei; [eapply ei_jump|eapply ei_cond|eapply ei_main|eapply ei_end|eapply ei_return]; eassumption.
    + intros _. exists (fst st). split; [destruct st; exact I2|]. intros x b i R Hb Hi. destruct (L1 _ _ Hb) as (k & L & Im). destruct (In_ _ _ (Ro _ R) L) as (F & _).
      rewrite Forall_forall in F. apply F. destruct Im as [(e & _ & _ & ->) _]. rewrite map_id. apply in_app_iff. left. apply in_map. exact Hi.
Qed.
Lemma component_numbered : builtin = false -> numbered keys o c (number (numbers keys nm self bs)).
Proof.
  intros B. destruct component_ok as (g & _ & _ & _ & N). destruct (N B) as (next & I & R).
  assert (P : forall x, refers o c x -> lookup x keys = None -> exists p, lookup x (numbers keys nm self bs) = Some p /\ p < next).
  { intros x (y & b & i & r & H1 & H2 & H3 & H4 & H5) Lx. specialize (R _ _ _ H1 H2 H3). unfold recorded in R. cbn [plain li_op li_lits] in R. rewrite H5 in R. cbn [first] in R.
    specialize (R H4 Lx). destruct (lookup x (numbers keys nm self bs)) as [p|] eqn:Lp; [|contradiction]. exists p. split; [reflexivity|]. exact (ind_bound (next, numbers keys nm self bs) _ _ I Lp). }
  constructor.
  - intros x Rx Lx. destruct (P x Rx Lx) as (p & Lp & _). exists p. unfold number. rewrite Lp. reflexivity.
  - intros x y Rx Ry Lx Ly E. destruct (P x Rx Lx) as (p & Lp & _). destruct (P y Ry Ly) as (q & Lq & _). unfold number in E. rewrite Lp, Lq in E.
    assert (p = q) by lia. subst q. exact (ind_inj (next, numbers keys nm self bs) _ _ _ I Lp Lq).
Qed.
End Component.
