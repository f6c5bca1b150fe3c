(** What the passes leave is what the simulation of the emitted code (C41) asks for. *)
From Verif Require Import Base Lexical SymExecModel AsmModel MachineSpec FootprintSpec DepsModel GreedyTailModel SpecModel SpecSem SpecDce BlockSpec EmitModel EmitSpec ProgSem ProgSpec ProgProofs ProgProps.
From Verif Require Import UtilModel UtilProps UnifyProps LiveModel CfgModel CfgSpec CfgProps CombineProps MergePassProps RemoveProps JumpModel JumpSpec JumpTrace JumpProofs JumpObject JumpProps CombineModel
  ObjCombineSpec ObjSem ObjRenameSpec ObjSsaSpec ObjDriverSpec ObjErase ObjProgram CompileSpec CompileOrigin.
From Verif Require LevelProps ObjInline ProgLayout.
Open Scope string_scope. Open Scope list_scope.

Definition variable (x : string) : Prop := exists n, x = ("v" ++ str_nat n)%string.
Definition operand (x : string) : Prop := prefix "0x" x = true \/ variable x.
Lemma variable_plain x : variable x -> numeral x = false /\ prefix "0x" x = false /\ x <> "bottom" /\ user_name x /\ forall f, x <> ("out_" ++ f)%string.
Proof.
  intros (n & ->). split; [reflexivity|]. split; [reflexivity|]. split; [discriminate|]. split; [|discriminate]. split; [reflexivity|]. split; [discriminate|]. intros m. discriminate.
Qed.
Lemma operand_bottom x : operand x -> x <> "bottom".
Proof. intros [P|V] ->; [discriminate|]. now apply variable_plain in V as (_ & _ & N & _). Qed.
Lemma address_user f : user_name ("out_" ++ f) /\ numeral ("out_" ++ f) = false /\ ("out_" ++ f)%string <> "bottom".
Proof. split; [|split; [reflexivity|discriminate]]. split; [reflexivity|]. split; [discriminate|]. intros n. discriminate. Qed.

(** Variables, and arguments of calls. *)
Record named (ob : cobject) : Prop := {
  na_instr : forall c g x b i, component ob c g -> lookup x (cl_blocks g) = Some b -> In i (cb_instrs b) ->
    (forall o, In o (li_outs i) -> variable o) /\ NoDup (li_outs i) /\ (forall v, In v (li_ins i) -> operand v)
    /\ forall k, lookup (li_op i) (ob_functions ob) = Some k -> length (fn_args k) = length (li_ins i);
  na_cond : forall c g x b v, component ob c g -> lookup x (cl_blocks g) = Some b -> cb_cond b = Some v -> operand v;
  na_args : forall f k, lookup f (ob_functions ob) = Some k -> NoDup (fn_args k) /\ forall x, In x (fn_args k) -> variable x
}.
Lemma block_here ob c g x b : component ob c g -> lookup x (cl_blocks g) = Some b -> block_at ob c x = Some b.
Proof. intros K L. unfold block_at. apply blocks_component in K. rewrite K. exact L. Qed.
Lemma inlined_named ob : ssa ob -> calls_ok ob -> (forall c x, defines_at ob c x -> variable x) -> named ob.
Proof.
  intros SS CA V.
  assert (OP : forall c x, reads_at ob c x -> operand x).
  { intros c x R. destruct (prefix "0x" x) eqn:P; [now left|]. right. apply (V c), (ssa_scoped _ SS); assumption. }
  split.
  - intros c g x b i K L I. pose proof (block_here ob c g x b K L) as B. split; [intros o O; apply (V c); right; eauto 8|]. split.
    + pose proof (ssa_once _ SS c g K) as N. apply CheckerProofs.NoDup_app_r in N. unfold results in N. apply lookup_In in L. apply (ObjInline.NoDup_flat_map_in _ _ _ N) in L. cbn [snd] in L. exact (ObjInline.NoDup_flat_map_in _ _ _ L I).
    + split; [intros v J; apply (OP c); exists x, b; eauto|]. intros k F. exact (proj1 (ca_arity _ CA c x b i k B I F)).
  - intros c g x b v K L Q. apply (OP c). exists x, b. split; [eapply block_here; eauto|now right].
  - intros f k L. split; [|intros x I; apply (V (Some f)); left; eauto]. pose proof (ssa_once _ SS (Some f) (fn_blocks k)) as N. cbn [arguments] in N. rewrite L in N. eapply CheckerProofs.NoDup_app_l, N. exists k. auto.
Qed.
Lemma combined_named so ob ob' : combinable ob -> combine_remove_object so ob = Ok ob' -> named ob -> named ob'.
Proof.
  intros CM E [NI NC NA]. destruct (combine_origin so ob ob' CM E) as (CO & NM & AR). split.
  - intros c g' x b i K L I. destruct (CO c g' K) as (g & K0 & O). destruct (proj1 (O x b L) i I) as (y & by' & Ly & Iy). destruct (NI c g y by' i K0 Ly Iy) as (A1 & A2 & A3 & A4). repeat (split; [assumption|]).
    intros k' F. destruct (AR _ _ F) as (k & F0 & ->). exact (A4 k F0).
  - intros c g' x b v K L Q. destruct (CO c g' K) as (g & K0 & O). destruct (proj2 (O x b L) v Q) as (y & by' & Ly & Qy). exact (NC c g y by' v K0 Ly Qy).
  - intros f k' L. destruct (AR f k' L) as (k & L0 & ->). exact (NA f k L0).
Qed.

Lemma lookup_map_key {A B} (h : string -> A -> B) x (d : list (string * A)) : lookup x (map (fun p => (fst p, h (fst p) (snd p))) d) = option_map (h x) (lookup x d).
Proof. induction d as [|[y a] d IH]; [reflexivity|]. cbn [map lookup fst snd]. destruct (String.eqb_spec y x) as [->|]; [reflexivity|exact IH]. Qed.
Lemma tags_lookup tags x : lookup x (tag_numbers tags) = option_map Z.of_nat (lookup x tags).
Proof. unfold tag_numbers. apply lookup_map. Qed.
Lemma translation_source ob res : source (translation_for ob res) = program_of ob.
Proof.
  unfold source, translation_for, program_of. cbn [t_main t_functions]. f_equal.
  - unfold source_component, tcomponent_for, pcomponent_of. cbn [t_params t_start t_blocks]. f_equal. rewrite map_map. reflexivity.
  - rewrite map_map. apply map_ext. intros (f, k). cbn [fst snd]. unfold source_component, tcomponent_for, pcomponent_of. cbn [t_params t_start t_blocks]. do 2 f_equal. rewrite map_map. reflexivity.
Qed.
Lemma translation_component ob (res : findings) c k : tcomponent_of (translation_for ob res) c = Some k ->
  exists g, component ob c g /\ k = tcomponent_for (params_of ob c) (return_name ob c) (res c) (fd_regs res c) g.
Proof.
  destruct c as [f|]; cbn [tcomponent_of translation_for t_main t_functions].
  - intros H. rewrite (lookup_map_key (fun f0 k0 => tcomponent_for (rev (fn_args k0)) (return_name ob (Some f0)) (res (Some f0)) (fd_regs res (Some f0)) (fn_blocks k0))) in H.
    destruct (lookup f (ob_functions ob)) as [k0|] eqn:L; [|discriminate]. injection H as <-. exists (fn_blocks k0). split; [exists k0; auto|]. replace (params_of ob (Some f)) with (rev (fn_args k0)); [reflexivity|]. unfold params_of. now rewrite L.
  - intros H. injection H as <-. exists (ob_main ob). split; reflexivity.
Qed.
Lemma translation_block ob (res : findings) c g x tb : lookup x (t_blocks (tcomponent_for (params_of ob c) (return_name ob c) (res c) (fd_regs res c) g)) = Some tb -> exists b, lookup x (cl_blocks g) = Some b /\ tb = tblock_for b (res c x).
Proof.
  cbn [tcomponent_for t_blocks]. rewrite (lookup_map_key (fun x0 b0 => tblock_for b0 (res c x0))). destruct (lookup x (cl_blocks g)) as [b|]; [|discriminate]. intros H. injection H as <-. eauto.
Qed.
Lemma translation_function ob res f k : lookup f (ob_functions ob) = Some k ->
  lookup f (t_functions (translation_for ob res)) = Some (tcomponent_for (rev (fn_args k)) (return_name ob (Some f)) (res (Some f)) (fd_regs res (Some f)) (fn_blocks k)).
Proof.
  intros L. cbn [translation_for t_functions]. rewrite (lookup_map_key (fun f0 k0 => tcomponent_for (rev (fn_args k0)) (return_name ob (Some f0)) (res (Some f0)) (fd_regs res (Some f0)) (fn_blocks k0))), L. reflexivity.
Qed.

(** The object after the last pass. *)
Section Placed.
Variables (ob ob' : cobject) (tags : list (string * nat)).
Hypothesis OO : object_ok ob.
Hypothesis NA : named ob.
Hypothesis IS : insert_and_split ob = Ok (ob', tags).
Notation fns := (map fst (ob_functions ob)).

Lemma pass : distinct_tags tags /\ map fst (ob_functions ob') = fns
  /\ (forall f k', lookup f (ob_functions ob') = Some k' -> exists k, lookup f (ob_functions ob) = Some k /\ fn_args k' = match return_name ob (Some f) with Some r => r :: fn_args k | None => fn_args k end)
  /\ forall c g', component ob' c g' -> exists g, component ob c g /\ consistent g' /\ changed (before fns (return_name ob c)) g g' /\ forall x b, lookup x (cl_blocks g') = Some b -> placed ob' tags (return_name ob c) b.
Proof.
  destruct (insert_and_split_changes ob OO) as (ob2 & tags2 & E2 & DT & NM & AR & H). rewrite IS in E2. injection E2 as <- <-. split; [exact DT|]. split; [exact NM|]. split.
  - intros f k' L. pose proof (lookup_In_key _ _ _ L) as I. rewrite NM in I. apply key_lookup in I as (k & L0). destruct (AR f k L0) as (k2 & L2 & Q). exists k. split; [exact L0|]. congruence.
  - intros c g' K'. assert (exists g, component ob c g) as (g & K).
    { destruct c as [f|]; [|exists (ob_main ob); reflexivity]. destruct K' as (k' & L & _). apply lookup_In_key in L. rewrite NM in L. apply key_lookup in L as (k & L). exists (fn_blocks k), k. auto. }
    destruct (H c g K) as (g2 & K2 & C2 & CH & PL). assert (g2 = g') as -> by (destruct c as [f|]; [destruct K' as (k1 & L1 & <-), K2 as (k2 & L2 & <-); congruence|cbn in K', K2; congruence]). eauto.
Qed.
Lemma returns_kept c : return_name ob' c = return_name ob c.
Proof.
  destruct pass as (_ & NM & _ & PC). destruct c as [f|]; [|reflexivity]. unfold return_name. destruct (lookup f (ob_functions ob')) as [k'|] eqn:L'.
  - destruct (PC (Some f) (fn_blocks k')) as (g & (k & L & <-) & C' & CH & _); [exists k'; auto|]. rewrite L. pose proof (changed_returns _ _ _ CH) as Q.
    pose proof (oo_consistent ob OO (Some f) (fn_blocks k)) as C. assert (KC : component ob (Some f) (fn_blocks k)) by (exists k; auto). specialize (C KC).
    destruct (cl_return (fn_blocks k')) as [|r l] eqn:R1, (cl_return (fn_blocks k)) as [|r2 l2] eqn:R2; try reflexivity; exfalso.
    + assert (HT : has_type ["FunctionReturn"] (fn_blocks k) r2) by (apply (c_return _ C); rewrite R2; now left). destruct (proj1 Q (ex_intro _ _ HT)) as (x & X). apply (c_return _ C') in X. rewrite R1 in X. destruct X.
    + assert (HT : has_type ["FunctionReturn"] (fn_blocks k') r) by (apply (c_return _ C'); rewrite R1; now left). destruct (proj2 Q (ex_intro _ _ HT)) as (x & X). apply (c_return _ C) in X. rewrite R2 in X. destruct X.
  - destruct (lookup f (ob_functions ob)) as [k|] eqn:L; [|reflexivity]. exfalso. apply lookup_In_key in L. rewrite <- NM in L. apply key_lookup in L as (? & L). congruence.
Qed.
(** An instruction that was there before. *)
Lemma original c g' x b i : component ob' c g' -> lookup x (cl_blocks g') = Some b -> In i (cb_instrs b) -> ~ In (li_op i) ["PUSH [tag]"; "JUMP"; "JUMPI"] ->
  exists g y b0 j, component ob c g /\ lookup y (cl_blocks g) = Some b0 /\ In j (cb_instrs b0) /\ before fns (return_name ob c) (Do i) = [Do j] /\ li_op i = li_op j /\ li_outs i = li_outs j.
Proof.
  intros K L I N. destruct pass as (_ & _ & _ & PC). destruct (PC c g' K) as (g & K0 & _ & CH & _).
  assert (B : exists j, before fns (return_name ob c) (Do i) = [Do j] /\ li_op i = li_op j /\ li_outs i = li_outs j).
  { unfold before. replace (mem (li_op i) ["PUSH [tag]"; "JUMP"; "JUMPI"]) with false by (symmetry; now apply mem_false). destruct (mem (li_op i) fns); [eexists; split; [reflexivity|auto]|]. destruct (String.eqb (li_op i) "functionReturn"); eexists; (split; [reflexivity|auto]). }
  destruct B as (j & B & O1 & O2). destruct (proj1 (changed_origin _ _ _ CH x b L) i (Do j) I) as (y & b0 & j0 & Ly & Ij & Ie); [rewrite B; now left|]. rewrite (plain_before ob c g y b0 j0 OO K0 Ly Ij) in Ie. destruct Ie as [[= ->]|[]].
  exists g, y, b0, j. auto 8.
Qed.
Lemma placed_here c g' x b : component ob' c g' -> lookup x (cl_blocks g') = Some b -> placed ob' tags (return_name ob' c) b.
Proof. intros K L. destruct pass as (_ & _ & _ & PC). destruct (PC c g' K) as (g & _ & _ & _ & PL). rewrite returns_kept. now apply PL with x. Qed.
Lemma consistent_here c g' : component ob' c g' -> consistent g'.
Proof. intros K. destruct pass as (_ & _ & _ & PC). now destruct (PC c g' K) as (g & _ & C & _). Qed.
Lemma condition_here c g' x b v : component ob' c g' -> lookup x (cl_blocks g') = Some b -> cb_cond b = Some v -> operand v.
Proof. intros K L Q. destruct pass as (_ & _ & _ & PC). destruct (PC c g' K) as (g & K0 & _ & CH & _). destruct (proj2 (changed_origin _ _ _ CH x b L) v Q) as (y & b0 & Ly & Qy). exact (na_cond _ NA c g y b0 v K0 Ly Qy). Qed.
Lemma address c r : return_name ob' c = Some r -> exists f, c = Some f /\ r = ("out_" ++ f)%string.
Proof. destruct c as [f|]; [|discriminate]. cbn [return_name]. destruct (lookup f (ob_functions ob')) as [k|]; [|discriminate]. destruct (cl_return (fn_blocks k)); [discriminate|]. intros [= <-]. eauto. Qed.
Lemma split_last c g' x b i : component ob' c g' -> lookup x (cl_blocks g') = Some b -> cb_split b = Some i -> exists pre, cb_instrs b = pre ++ [i].
Proof.
  intros K L Q. rewrite (pl_split _ _ _ _ (placed_here c g' x b K L)) in Q. destruct (rev (cb_instrs b)) as [|j l] eqn:R; [discriminate|]. destruct (mem _ _); [|discriminate]. injection Q as ->.
  exists (rev l). rewrite <- (rev_involutive (cb_instrs b)), R. reflexivity.
Qed.
(** Results of instructions. *)
Lemma outs_here c g' x b i o : component ob' c g' -> lookup x (cl_blocks g') = Some b -> In i (cb_instrs b) -> In o (li_outs i) -> numeral o = true \/ variable o.
Proof.
  intros K L I O. pose proof (placed_here c g' x b K L) as PL. destruct (in_dec string_dec (li_op i) ["PUSH [tag]"; "JUMP"; "JUMPI"]) as [N|N].
  - destruct (CombineProps.snoc_cases (cb_instrs b)) as [Q|(l & z & Q)]; [rewrite Q in I; destruct I|]. rewrite Q in I. apply in_app_iff in I as [I|[->|[]]].
    + destruct (pl_inner _ _ _ _ PL i) as (P1 & P2); [rewrite Q, removelast_last; exact I|]. destruct N as [N|[N|[N|[]]]]; [|elim P1; rewrite <- N; cbn; tauto|elim P1; rewrite <- N; cbn; tauto].
      destruct (P2 (eq_sym N)) as (t & ->). destruct O as [<-|[]]. left. apply str_nat_numeral.
    + destruct (pl_last _ _ _ _ PL l i Q) as (P0 & _ & P1 & P2). exfalso. destruct N as [N|[N|[N|[]]]]; [now elim P0| |].
      * destruct (pl_jump _ _ _ _ PL (P1 (eq_sym N))) as (j & t & _ & _ & _ & _ & pre & E & _). rewrite Q in E. apply app_inj_tail in E as (_ & ->). destruct O.
      * destruct (pl_jumpi _ _ _ _ PL (P2 (eq_sym N))) as (j & f & cc & t & _ & _ & _ & _ & _ & pre & E & _). rewrite Q in E. apply app_inj_tail in E as (_ & ->). destruct O.
  - destruct (original c g' x b i K L I N) as (g & y & b0 & j & K0 & L0 & I0 & _ & _ & EO). right. destruct (na_instr _ NA c g y b0 j K0 L0 I0) as (V & _). apply V. now rewrite <- EO.
Qed.
Lemma not_address o f : numeral o = true \/ variable o -> o <> ("out_" ++ f)%string.
Proof. intros [H|H] ->; [destruct (address_user f) as (_ & N & _); congruence|]. apply variable_plain in H as (_ & _ & _ & _ & N). now elim (N f). Qed.
(** Parameters. *)
Lemma params_here f k : lookup f (ob_functions ob') = Some k -> NoDup (fn_args k) /\ (forall x, In x (fn_args k) -> user_name x)
  /\ match return_name ob' (Some f) with Some r => exists l, fn_args k = r :: l | None => True end.
Proof.
  intros L. destruct pass as (_ & _ & AR & _). destruct (AR f k L) as (k0 & L0 & ->). destruct (na_args _ NA f k0 L0) as (ND & V). rewrite returns_kept.
  assert (U : forall x, In x (fn_args k0) -> user_name x) by (intros x I; now apply variable_plain, V). destruct (return_name ob (Some f)) as [r|] eqn:R; [|auto]. rewrite <- returns_kept in R. apply address in R as (f0 & [= <-] & ->). split.
  - constructor; [|exact ND]. intros I. apply V, variable_plain in I as (_ & _ & _ & _ & N). now elim (N f).
  - split; [|eauto]. intros x [<-|I]; [apply address_user|auto].
Qed.
(** Calls. *)
Lemma filter_numerals l1 l2 : (forall v, In v l1 -> numeral v = false) -> (forall v, In v l2 -> numeral v = true) -> filter (fun x => negb (numeral x)) (l1 ++ l2) = l1.
Proof.
  intros H1 H2. rewrite filter_app. replace (filter _ l2) with ([] : list string).
  - rewrite app_nil_r. induction l1 as [|v l IH]; [reflexivity|]. cbn [filter]. rewrite (H1 v) by now left. cbn [negb]. f_equal. apply IH. intros w I. apply H1. now right.
  - symmetry. induction l2 as [|v l IH]; [reflexivity|]. cbn [filter]. rewrite (H2 v) by now left. cbn [negb]. apply IH. intros w I. apply H2. now right.
Qed.
Lemma call_here c g' x b i k : component ob' c g' -> lookup x (cl_blocks g') = Some b -> cb_split b = Some i -> lookup (li_op i) (ob_functions ob') = Some k ->
  exists s t args back, cl_start (fn_blocks k) = Some s /\ lookup s tags = Some t /\ pushes b t /\ li_ins i = str_nat t :: args ++ back /\ (forall v, In v args -> operand v)
    /\ length (fn_args k) = length args + match return_name ob' (Some (li_op i)) with Some _ => 1 | None => 0 end
    /\ NoDup (li_outs i) /\ (forall o, In o (li_outs i) -> user_name o)
    /\ match successors b with
       | [] => back = []
       | next :: more => more = [] /\ exists t', lookup next tags = Some t' /\ pushes b t' /\ back = [str_nat t']
       end.
Proof.
  intros K L S F. destruct (split_last c g' x b i K L S) as (pre & Q). destruct (pl_calls _ _ _ _ (placed_here c g' x b K L) pre i [] k Q F) as (_ & _ & s & t & args & back & S1 & T1 & P1 & IN & NU & MB).
  assert (NB : forall v, In v back -> numeral v = true).
  { intros v I. destruct (successors b) as [|next more]; [subst back; destruct I|]. destruct MB as (_ & t' & _ & _ & ->). destruct I as [<-|[]]. apply str_nat_numeral. }
  assert (FI : In (li_op i) fns). { destruct pass as (_ & NM & _). rewrite <- NM. eapply lookup_In_key; eauto. }
  assert (N : ~ In (li_op i) ["PUSH [tag]"; "JUMP"; "JUMPI"]) by (intros I; apply (oo_reserved ob OO _ FI); cbn in I |- *; tauto).
  destruct (original c g' x b i K L ltac:(rewrite Q; apply in_app_iff; right; now left) N) as (g & y & b0 & j & K0 & L0 & I0 & BE & OP & EO).
  assert (AJ : li_ins j = args).
  { unfold before in BE. replace (mem (li_op i) ["PUSH [tag]"; "JUMP"; "JUMPI"]) with false in BE by (symmetry; now apply mem_false). replace (mem (li_op i) fns) with true in BE by (symmetry; now apply mem_In). injection BE as <-. cbn [li_ins]. rewrite IN.
    cbn [filter]. rewrite str_nat_numeral. cbn [negb]. now apply filter_numerals. }
  destruct (na_instr _ NA c g y b0 j K0 L0 I0) as (V & ND & OPS & AR). exists s, t, args, back. repeat (split; [assumption|]). split; [now rewrite <- AJ|]. split.
  { destruct pass as (_ & _ & ARG & _). destruct (ARG _ _ F) as (k0 & F0 & ->). rewrite OP in F0. apply AR in F0. rewrite AJ in F0. rewrite returns_kept. destruct (return_name ob (Some (li_op i))); cbn [length]; lia. }
  rewrite EO. split; [exact ND|]. split; [|exact MB]. intros o O. apply V in O. now apply variable_plain in O.
Qed.
(** The values returned. *)
Lemma return_here c g' x b r vs : component ob' c g' -> lookup x (cl_blocks g') = Some b -> ~ In r vs -> return_name ob' c = Some r -> ends_with b "functionReturn" (r :: vs) [] -> forall v, In v vs -> operand v.
Proof.
  intros K L NR R (pre & Q & _) v I. set (i := {| li_op := "functionReturn"; li_ins := r :: vs; li_outs := []; li_lits := None |}) in *.
  destruct (original c g' x b i K L ltac:(rewrite Q; apply in_app_iff; right; now left) ltac:(cbn; intuition discriminate)) as (g & y & b0 & j & K0 & L0 & I0 & BE & _).
  assert (NF : mem "functionReturn" fns = false). { apply mem_false. intros J. apply (oo_reserved ob OO _ J). cbn. tauto. }
  unfold before in BE. cbn [li_op i mem String.eqb Ascii.eqb Bool.eqb] in BE. rewrite NF in BE. injection BE as <-. destruct (na_instr _ NA c g y b0 _ K0 L0 I0) as (_ & _ & OPS & _). apply OPS. cbn [li_ins i]. rewrite returns_kept in R. rewrite R.
  rewrite String.eqb_refl. cbn [negb]. apply filter_In. split; [exact I|]. apply negb_true_iff, String.eqb_neq. intros ->. contradiction.
Qed.
(** Arguments of instructions that stop. *)
Lemma stop_here c g' x b i v : component ob' c g' -> lookup x (cl_blocks g') = Some b -> cb_split b = Some i -> In (li_op i) ["return"; "revert"; "stop"; "selfdestruct"] -> ~ In (li_op i) fns -> In v (li_ins i) -> operand v.
Proof.
  intros K L S O NF I. destruct (split_last c g' x b i K L S) as (pre & Q).
  assert (N : ~ In (li_op i) ["PUSH [tag]"; "JUMP"; "JUMPI"]) by (intros J; cbn in O, J; intuition congruence).
  destruct (original c g' x b i K L ltac:(rewrite Q; apply in_app_iff; right; now left) N) as (g & y & b0 & j & K0 & L0 & I0 & BE & _).
  unfold before in BE. replace (mem (li_op i) ["PUSH [tag]"; "JUMP"; "JUMPI"]) with false in BE by (symmetry; now apply mem_false). replace (mem (li_op i) fns) with false in BE by (symmetry; now apply mem_false).
  assert (NR : String.eqb (li_op i) "functionReturn" = false) by (apply String.eqb_neq; cbn in O; intuition congruence). rewrite NR in BE. injection BE as <-. destruct (na_instr _ NA c g y b0 _ K0 L0 I0) as (_ & _ & OPS & _). auto.
Qed.
(** Tags pushed by a block. *)
Lemma pushed c g' x b i t j r : component ob' c g' -> lookup x (cl_blocks g') = Some b -> cb_split b = Some i -> li_op i <> "PUSH [tag]" -> pushes b t -> lookup j tags = Some t -> tag_for (tag_numbers tags) (tblock_for b r) (str_nat t) j.
Proof.
  intros K L S N P T. destruct (split_last c g' x b i K L S) as (pre & Q). exists (Z.of_nat t). split; [|rewrite tags_lookup, T; reflexivity].
  exists (cins_of {| li_op := "PUSH [tag]"; li_ins := []; li_outs := [str_nat t]; li_lits := None |}). split; [|split; [reflexivity|split; [reflexivity|apply py_int_str_nat]]].
  cbn [tblock_for t_block pblock_of p_instrs]. apply in_map. unfold to_synthesize. rewrite S. apply filter_In. split; [|reflexivity]. unfold pushes in P. rewrite Q in *. rewrite removelast_last. apply in_app_iff in P as [P|[P|[]]]; [exact P|]. subst i. now elim N.
Qed.

Section Generated.
Variables (res : findings) (dummy : list string) (fuel : nat).
Hypothesis GE : generated ob' tags res dummy fuel.
Hypothesis PF : forall f, In f (map fst (ob_functions ob')) -> ~ In f ["return"; "revert"; "stop"; "selfdestruct"].
Notation tr := (translation_for ob' res).
Notation nums := (tag_numbers tags).

Lemma names_kept : map fst (ob_functions ob') = fns. Proof. apply pass. Qed.
Lemma block_ends c g x b : component ob' c g -> lookup x (cl_blocks g) = Some b -> ending tr nums (tcomponent_for (params_of ob' c) (return_name ob' c) (res c) (fd_regs res c) g) (tblock_for b (res c x)).
Proof.
  intros K L. pose proof (placed_here c g x b K L) as PL. destruct (ge_kind _ _ _ _ _ _ GE c g x b K L) as [T|T S F|i T S F NF R|i T S F R|i T S O|T S].
  - destruct T as [T|[T|[T|[]]]].
    + destruct (pl_jump _ _ _ _ PL (eq_sym T)) as (j & t & J & _ & LT & P & pre & Q & S). eapply Ends_jump with (j := j) (t := str_nat t); cbn [tblock_for t_block pblock_of p_type p_last p_jump_to]; [now symmetry|rewrite S; reflexivity|reflexivity|reflexivity|reflexivity|exact J|].
      eapply pushed; eauto. discriminate.
    + destruct (pl_jumpi _ _ _ _ PL (eq_sym T)) as (j & f & cc & t & J & F & CC & LT & P & pre & Q & S). eapply Ends_jumpi with (j := j) (t := str_nat t) (cond := cc) (f := f); cbn [tblock_for t_block pblock_of p_type p_last p_jump_to p_falls_to]; [now symmetry|rewrite S; reflexivity|reflexivity|reflexivity|reflexivity| |exact J|exact F|].
      * eapply operand_bottom, condition_here; eauto.
      * eapply pushed; eauto. discriminate.
    + destruct (pl_return _ _ _ _ PL (eq_sym T)) as (r & vs & R & NR & EW). pose proof EW as (pre & Q & S). eapply Ends_return with (r := r) (values := vs); cbn [tblock_for t_block pblock_of p_type p_last tcomponent_for t_return t_final]; [now symmetry|rewrite S; reflexivity|reflexivity|reflexivity|reflexivity| |exact R|].
      * intros v I. apply operand_bottom. eapply return_here; eauto.
      * eapply ge_return; eauto.
  - destruct (cb_falls_to b) as [f|] eqn:FF; [|contradiction]. eapply Ends_fall with (f := f); cbn [tblock_for t_block pblock_of p_type p_last p_falls_to]; [exact T|rewrite S; reflexivity|exact FF].
  - apply key_lookup in F as (k & F). destruct (call_here c g x b i k K L S F) as (s & t & args & back & ST & LT & P & IN & OPS & LEN & ND & UN & MB). destruct (cb_falls_to b) as [next|] eqn:FF; [|contradiction].
    assert (NO : li_op i <> "PUSH [tag]"). { intros Q. apply lookup_In_key in F. rewrite names_kept in F. apply (oo_reserved ob OO _ F). rewrite Q. cbn. tauto. }
    assert (JT : cb_jump_to b = None). { apply (pl_other _ _ _ _ PL); intros Q; rewrite Q in T; cbn in T; intuition discriminate. }
    unfold successors in MB. rewrite JT, FF in MB. cbn [app] in MB. destruct MB as (_ & t' & LT' & P' & ->). destruct (return_name ob' (Some (li_op i))) as [r|] eqn:RN; [|contradiction].
    destruct (params_here _ _ F) as (_ & _ & PA). rewrite RN in PA. destruct PA as (ps & PA).
    eapply (Ends_call tr nums _ _ (cins_of i) (tcomponent_for (rev (fn_args k)) (return_name ob' (Some (li_op i))) (res (Some (li_op i))) (fd_regs res (Some (li_op i))) (fn_blocks k)) (str_nat t) args (str_nat t') next r (rev ps)); cbn [tblock_for t_block pblock_of p_type p_last p_falls_to cins_of c_op c_in c_out tcomponent_for t_start t_return t_params t_final].
    + exact T.
    + rewrite S. reflexivity.
    + now apply translation_function.
    + exact IN.
    + rewrite ST. eapply pushed; eauto.
    + intros v I. apply operand_bottom. auto.
    + exact FF.
    + eapply pushed; eauto.
    + exact RN.
    + rewrite PA. reflexivity.
    + rewrite rev_length. rewrite PA in LEN. cbn [length] in LEN. lia.
    + exact ND.
    + exact UN.
    + intros rest v. apply (ge_results _ _ _ _ _ _ GE c g x b i rest v K L S).
  - apply key_lookup in F as (k & F). destruct (call_here c g x b i k K L S F) as (s & t & args & back & ST & LT & P & IN & OPS & LEN & ND & UN & MB).
    assert (NO : li_op i <> "PUSH [tag]"). { intros Q. apply lookup_In_key in F. rewrite names_kept in F. apply (oo_reserved ob OO _ F). rewrite Q. cbn. tauto. }
    eapply (Ends_last_call tr nums _ _ (cins_of i) (tcomponent_for (rev (fn_args k)) (return_name ob' (Some (li_op i))) (res (Some (li_op i))) (fd_regs res (Some (li_op i))) (fn_blocks k)) (str_nat t) (args ++ back)); cbn [tblock_for t_block pblock_of p_type p_last p_falls_to cins_of c_op c_in c_out tcomponent_for t_start t_return t_params].
    + exact T.
    + rewrite S. reflexivity.
    + now apply translation_function.
    + exact IN.
    + rewrite ST. eapply pushed; eauto.
    + intros v I. apply in_app_iff in I as [I|I]; [apply operand_bottom; auto|]. destruct (successors b) as [|next more]; [subst back; destruct I|]. destruct MB as (_ & t' & _ & _ & ->). destruct I as [<-|[]]. intros Q. pose proof (str_nat_numeral t') as NU. rewrite Q in NU. discriminate.
    + exact R.
    + rewrite rev_length, app_length. rewrite R in LEN. lia.
  - eapply Ends_stop with (i := cins_of i); cbn [tblock_for t_block pblock_of p_type p_last cins_of c_op c_in]; [exact T|rewrite S; reflexivity|exact O|]. intros v I. apply operand_bottom. eapply stop_here; eauto. intros J. rewrite <- names_kept in J. exact (PF _ J O).
  - apply Ends_main; cbn [tblock_for t_block pblock_of p_type p_last]; [exact T|rewrite S; reflexivity].
Qed.

Lemma generated_translated : translated tr nums dummy.
Proof.
  assert (TB : forall c x tb, tblock_of tr c x = Some tb -> exists g b, component ob' c g /\ lookup x (cl_blocks g) = Some b /\ tb = tblock_for b (res c x)).
  { intros c x tb H. unfold tblock_of in H. destruct (tcomponent_of tr c) as [k|] eqn:T; [|discriminate]. apply translation_component in T as (g & K & ->). apply translation_block in H as (b & L & ->). eauto. }
  constructor.
  - intros c x tb H. apply TB in H as (g & b & K & L & ->). eapply ge_compiled; eauto.
  - intros c x tb H. apply TB in H as (g & b & K & L & ->). eapply ge_unread; eauto.
  - cbn [translation_for t_functions]. rewrite map_map. cbn [fst]. split; [change (NoDup (map fst (ob_functions ob'))); rewrite names_kept; apply OO|]. intros f I J. change (In f (map fst (ob_functions ob'))) in I. pose proof (PF f I) as N1. rewrite names_kept in I. pose proof (oo_reserved ob OO f I) as N2. cbn in J, N1, N2. tauto.
  - intros c k x tb T H. apply translation_component in T as (g & K & ->). apply translation_block in H as (b & L & ->). now apply block_ends.
  - intros c k x tb T H N. apply translation_component in T as (g & K & ->). apply translation_block in H as (b & L & ->). exact (ge_junk _ _ _ _ _ _ GE c g x b K L N).
  - intros c k x tb x' tb' T H G H'. apply translation_component in T as (g & K & ->). apply translation_block in H as (b & L & ->). apply translation_block in H' as (b' & L' & ->). apply (ge_edges _ _ _ _ _ _ GE c g x b x' b' K L); [|exact L'].
    cbn [tblock_for t_block pblock_of p_jump_to p_falls_to] in G. unfold successors. apply in_app_iff. destruct G as [-> | ->]; [left|right]; now left.
  - intros c k x tb x' tb' T H G H'. apply translation_component in T as (g & K & ->). apply translation_block in H as (b & L & ->). apply translation_block in H' as (b' & L' & ->). apply (ge_held _ _ _ _ _ _ GE c g x b x' b' K L); [|exact L'].
    cbn [tblock_for t_block pblock_of p_jump_to p_falls_to] in G. unfold successors. apply in_app_iff. destruct G as [-> | ->]; [left|right]; now left.
  - intros c k tb T H. apply translation_component in T as (g & K & ->). apply translation_block in H as (b & L & ->). cbn [tcomponent_for t_start tblock_for t_held] in *.
    destruct (c_start g (consistent_here c g K)) as (s & S & _). rewrite S in *. exact (ge_nothing _ _ _ _ _ _ GE c g s K S).
  - intros c k x tb T H. apply translation_component in T as (g & K & ->). apply translation_block in H as (b & L & ->). destruct (ge_regs _ _ _ _ _ _ GE c g x b K L) as (R1 & R2 & R3).
    split; [exact R1|]. split; [exact R2|]. cbn [tblock_for t_block pblock_of p_last]. intros i fk Q LF. destruct (cb_split b) as [j|] eqn:SB; [|discriminate]. injection Q as <-.
    cbn [cins_of c_op] in LF. pose proof (translation_component ob' res (Some (li_op j)) fk LF) as (g2 & (k2 & L2 & _) & ->).
    cbn [tcomponent_for t_regs]. apply (R3 j eq_refl). apply lookup_In_key with k2. exact L2.
  - intros c k tb T H. apply translation_component in T as (g & K & ->). apply translation_block in H as (b & L & ->). cbn [tcomponent_for t_params t_start t_return] in *.
    destruct (c_start g (consistent_here c g K)) as (s & S & _). rewrite S in *. split; [|split; [|exact (ge_entry _ _ _ _ _ _ GE c g s b K S L)]].
    + destruct c as [f|]; [|constructor]. destruct K as (k & LF & _). cbn [params_of]. rewrite LF. apply NoDup_rev. now apply (params_here f).
    + destruct c as [f|]; [|intros p []]. destruct K as (k & LF & _). cbn [params_of]. rewrite LF. intros p I. apply in_rev in I. destruct (params_here f k LF) as (_ & U & _). auto.
  - intros c k r x tb T R H. apply translation_component in T as (g & K & ->). apply translation_block in H as (b & L & ->). cbn [tcomponent_for t_return] in R. pose proof R as R0. apply address in R as (f & -> & ->).
    assert (NO : forall i o, In i (cb_instrs b) -> In o (li_outs i) -> o <> ("out_" ++ f)%string) by (intros i o I O; eapply not_address, outs_here; eauto).
    cbn [tblock_for t_block pblock_of p_phis p_instrs p_last]. split; [|split; [|split]].
    + intros I. apply in_map_iff in I as ((o, l) & Q & I). cbn [fst] in Q. subst o. unfold phi_pairs in I. apply in_flat_map in I as (i & I & J). apply filter_In in I as (I & _). apply in_map_iff in J as (o & [= -> _] & J). exact (NO i _ I J eq_refl).
    + intros i I O. apply in_map_iff in I as (j & <- & I). unfold to_synthesize in I. apply filter_In in I as (I & _). assert (J : In j (cb_instrs b)) by (destruct (cb_split b); [now apply removelast_In|exact I]). exact (NO j _ J O eq_refl).
    + intros i Q O. destruct (cb_split b) as [j|] eqn:S; [|discriminate]. injection Q as <-. destruct (split_last _ _ _ _ _ K L S) as (pre & Q). apply (NO j ("out_" ++ f)%string); [rewrite Q; apply in_app_iff; right; now left|exact O|reflexivity].
    + exact (ge_dummy _ _ _ _ _ _ GE _ _ R0).
  - split; reflexivity.
Qed.
Lemma NoDup_concat {A} (ls : list (list A)) : (forall l, In l ls -> NoDup l) -> ForallOrdPairs (fun l1 l2 => forall x, In x l1 -> ~ In x l2) ls -> NoDup (concat ls).
Proof.
  intros H F. induction F as [|l ls F0 F IH]; [constructor|]. cbn [concat]. apply ProgLayout.NoDup_app_intro; [apply H; now left|apply IH; intros m I; apply H; now right|].
  intros x I J. apply in_concat in J as (m & Im & J). rewrite Forall_forall in F0. exact (F0 m Im x I J).
Qed.
Lemma generated_emittable : emittable tr nums fuel.
Proof.
  destruct pass as (DT & NM & _ & PC). assert (EF : map fst (t_functions tr) = map fst (ob_functions ob')) by (cbn [translation_for t_functions]; rewrite map_map; reflexivity). constructor.
  - intros blocks start I. rewrite EF. exact (ge_formed _ _ _ _ _ _ GE blocks start I).
  - assert (BN : forall c g x, component ob' c g -> In x (map fst (cl_blocks g)) -> exists y, block_name ob c y /\ spread y x).
    { intros c g x K I. destruct (PC c g K) as (g0 & K0 & _ & CH & _). destruct (changed_names _ _ _ CH x I) as (y & Iy & S). exists y. split; [exists g0; auto|exact S]. }
    assert (AP : forall c1 c2 g1 g2 x, component ob' c1 g1 -> component ob' c2 g2 -> In x (map fst (cl_blocks g1)) -> In x (map fst (cl_blocks g2)) -> c1 = c2).
    { intros c1 c2 g1 g2 x K1 K2 I1 I2. destruct (BN c1 g1 x K1 I1) as (y1 & B1 & S1). destruct (BN c2 g2 x K2 I2) as (y2 & B2 & S2). destruct (names_apart ob OO c1 c2 y1 y2 B1 B2) as [(Q & _)|A]; [exact Q|]. elim (A x S1 S2). }
    assert (NDF : NoDup (map fst (ob_functions ob'))) by (rewrite NM; apply OO). assert (KF : forall f k, In (f, k) (ob_functions ob') -> component ob' (Some f) (fn_blocks k)) by (intros f k I; exists k; split; [now apply dict_In|reflexivity]).
    assert (E : map (fun k => map fst (t_blocks k)) (t_main tr :: map snd (t_functions tr)) = map fst (cl_blocks (ob_main ob')) :: map (fun fk => map fst (cl_blocks (fn_blocks (snd fk)))) (ob_functions ob')).
    { cbn [map translation_for t_main t_functions tcomponent_for t_blocks]. rewrite !map_map. cbn [fst]. f_equal. apply map_ext. intros (f, k). cbn [snd fst tcomponent_for t_blocks]. now rewrite map_map. }
    rewrite E. clear E. apply NoDup_concat.
    + intros l [<-|I]; [apply (consistent_here None (ob_main ob') eq_refl)|]. apply in_map_iff in I as ((f, k) & <- & I). apply (consistent_here (Some f) (fn_blocks k)), KF, I.
    + constructor.
      * apply Forall_forall. intros l I x Ix Jx. apply in_map_iff in I as ((f, k) & <- & I). discriminate (AP None (Some f) _ _ x eq_refl (KF f k I) Ix Jx).
      * clear - AP KF NDF. assert (IC : incl (ob_functions ob') (ob_functions ob')) by apply incl_refl. revert NDF IC. generalize (ob_functions ob') at 1 2 4. intros l. induction l as [|(f, k) l IH]; intros ND IC; [constructor|]. cbn [map] in *. inversion ND as [|? ? N1 N2]; subst. constructor.
        -- apply Forall_forall. intros m I x Ix Jx. apply in_map_iff in I as ((f2, k2) & <- & I). pose proof (AP (Some f) (Some f2) _ _ x (KF f k (IC _ (or_introl eq_refl))) (KF f2 k2 (IC _ (or_intror I))) Ix Jx) as Q. injection Q as <-. apply N1. change f with (fst (f, k2)). now apply in_map.
        -- apply IH; [exact N2|]. intros p I. apply IC. now right.
  - intros x y z Hx Hy. rewrite tags_lookup in Hx, Hy. destruct (lookup x tags) as [t|] eqn:Lx; [|discriminate]. destruct (lookup y tags) as [u|] eqn:Ly; [|discriminate]. cbn [option_map] in *. apply (proj2 DT x y t Lx). rewrite Ly. f_equal. injection Hx as Hx. injection Hy as Hy. lia.
  - intros x z H. rewrite tags_lookup in H. destruct (lookup x tags) as [t|]; [|discriminate]. injection H as <-. lia.
Qed.
End Generated.
End Placed.
