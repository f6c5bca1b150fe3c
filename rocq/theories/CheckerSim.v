(** Simulation of accepted symbolic runs by the machine, and the main
    soundness theorem of the validator. *)
From Coq Require Import Relations.
From Verif Require Import Base Lexical SymExecModel AsmModel MachineSpec
  GreedyTailModel FootprintSpec LexicalProofs CheckerProofs.

Lemma prefix_clash p q s : String.get 0 p <> String.get 0 q -> String.get 0 p <> None ->
  String.get 0 q <> None -> prefix p s = true -> prefix q s = true -> False.
Proof.
  destruct p as [|a p], q as [|b q]; simpl; try congruence. intros N _ _.
  destruct s as [|c s]; [discriminate|]. cbn [prefix].
  destruct (ascii_dec a c), (ascii_dec b c); congruence.
Qed.

Lemma no_paren_of_prefix p s : String.get 0 p <> None -> String.get 0 p <> Some "V"%char ->
  prefix p s = true -> vget_arg s = None /\ vset_arg s = None.
Proof.
  intros H1 H2 H3. split.
  - destruct (vget_arg s) eqn:E; auto. exfalso. apply paren_arg_prefix in E.
    eapply (prefix_clash p "VGET("); eauto; simpl; congruence.
  - destruct (vset_arg s) eqn:E; auto. exfalso. apply paren_arg_prefix in E.
    eapply (prefix_clash p "VSET("); eauto; simpl; congruence.
Qed.

Lemma vget_not_vset s x : vget_arg s = Some x -> vset_arg s = None.
Proof.
  intros E. destruct (vset_arg s) eqn:F; auto. exfalso.
  apply paren_arg_prefix in E, F. destruct s as [|c s]; [discriminate|].
  cbn [prefix] in E, F. destruct (ascii_dec "V" c); [subst|discriminate].
  destruct s as [|c s]; [discriminate|]. cbn [prefix] in E, F.
  destruct (ascii_dec "G" c), (ascii_dec "S" c); congruence.
Qed.

Lemma startswith_false_of_vprefix p s x : String.get 0 p <> None -> String.get 0 p <> Some "V"%char ->
  vget_arg s = Some x \/ vset_arg s = Some x -> startswith p s = false.
Proof.
  intros H1 H2 H3. destruct (startswith p s) eqn:E; auto. exfalso.
  destruct (no_paren_of_prefix p s H1 H2 E) as [A B]. destruct H3; congruence.
Qed.

Definition bound_ok (id : string) : Prop := check_dup_swap 16 [id] = Ok tt.

Lemma check_dup_swap_In reach ids : check_dup_swap reach ids = Ok tt ->
  forall id, In id ids -> check_dup_swap reach [id] = Ok tt.
Proof.
  unfold check_dup_swap. induction ids as [|y ids IH]; intros H id Hin; [destruct Hin|].
  cbn [for_each] in H. apply bind_ok in H as ([] & H1 & H2).
  destruct Hin as [->|Hin]; [|auto]. cbn [for_each]. rewrite H1. reflexivity.
Qed.

Lemma bound_swap reach id n : check_dup_swap reach [id] = Ok tt -> contains "SWAP" id = true ->
  py_int (sdrop 4 id) = Some n -> (1 <= n <= reach)%Z.
Proof.
  unfold check_dup_swap. cbn [for_each]. intros H C N. rewrite C, N in H. cbn [of_option bind] in H.
  apply bind_ok in H as ([] & H & _). apply bind_ok in H as ([] & H1 & H2).
  apply py_assert_ok in H1, H2. lia.
Qed.

Lemma bound_dup reach id n : check_dup_swap reach [id] = Ok tt -> contains "SWAP" id = false ->
  contains "DUP" id = true -> py_int (sdrop 3 id) = Some n -> (1 <= n <= reach)%Z.
Proof.
  unfold check_dup_swap. cbn [for_each]. intros H S C N. rewrite S, C, N in H. cbn [of_option bind] in H.
  apply bind_ok in H as ([] & H & _). apply bind_ok in H as ([] & H1 & H2).
  apply py_assert_ok in H1, H2. lia.
Qed.

Section Sim.
Context {V Loc LV : Type}.
Variable sem : semantics V Loc LV.
Variable ui : list instr.
Variable e : string -> V.

Definition mk (st : list V) (w : Loc -> LV) (r : string -> V) : mstate V Loc LV :=
  {| m_stack := st; m_world := w; m_regs := r |}.

Lemma stack_step id st st' w r below :
  is_stack_op id = true -> bound_ok id ->
  execute_instr_id id st ui = Ok st' ->
  (forall x, vget_arg id = Some x -> r x = e x) ->
  exists r', mstep sem (asm_from_op_info id None) (mk (map e st ++ below) w r)
             = Some (mk (map e st' ++ below) w r')
    /\ ((vset_arg id = None /\ r' = r)
        \/ exists x, vset_arg id = Some x /\ r' = upd_reg r x (e x)).
Proof.
  intros K B H G. unfold execute_instr_id in H. unfold mstep, kind_of, asm_from_op_info, mk.
  cbn [a_name a_value m_stack m_world m_regs option_map].
  destruct (String.eqb_spec id "POP") as [->|NP].
  { destruct st as [|x st]; [discriminate|]. cbn in H. injection H as <-.
    exists r. split; [reflexivity|]. left; split; reflexivity. }
  destruct (contains "SWAP" id) eqn:CS.
  { apply bind_ok in H as (n & Hn & H). apply of_option_ok in Hn.
    pose proof (swap_prefix _ _ CS Hn) as P. rewrite P, Hn. cbn [option_map].
    pose proof (bound_swap _ _ _ B CS Hn) as Bn.
    replace ((1 <=? n) && (n <=? 16))%Z with true by (symmetry; apply andb_true_iff; split; lia).
    unfold exec_swap in H. apply bind_ok in H as ([] & Ha & H).
    apply py_assert_ok in Ha. apply andb_true_iff in Ha as [_ Ha].
    destruct st as [|x st]; [discriminate|].
    destruct (nth_error (x :: st) (Z.to_nat n)) as [y|] eqn:Ny; [|discriminate].
    replace (Z.to_nat n) with (S (Z.to_nat (n - 1))) in * by lia.
    cbn [nth_error] in Ny. cbn [set_nth] in H. injection H as <-.
    assert (L : Z.to_nat (n - 1) < length st) by (apply nth_error_Some; congruence).
    cbn [map app].
    rewrite nth_error_app1 by (rewrite map_length; auto).
    rewrite (map_nth_error e _ _ Ny).
    exists r. split.
    - rewrite map_set_nth, set_nth_app by (rewrite map_length; auto). reflexivity.
    - left. split; auto. apply (no_paren_of_prefix "SWAP" id); [simpl; congruence|simpl; congruence|exact P]. }
  destruct (contains "DUP" id) eqn:CD.
  { apply bind_ok in H as (n & Hn & H). apply of_option_ok in Hn.
    pose proof (dup_prefix _ _ CD Hn) as P.
    assert (S0 : startswith "SWAP" id = false).
    { destruct (startswith "SWAP" id) eqn:E; auto. apply startswith_contains in E. congruence. }
    rewrite S0, P, Hn. cbn [option_map].
    pose proof (bound_dup _ _ _ B CS CD Hn) as Bn.
    replace ((1 <=? n) && (n <=? 16))%Z with true by (symmetry; apply andb_true_iff; split; lia).
    unfold exec_dup in H. apply bind_ok in H as ([] & Ha & H).
    destruct (nth_error st (Z.to_nat (n - 1))) as [y|] eqn:Ny; [|discriminate].
    injection H as <-.
    assert (L : Z.to_nat (n - 1) < length st) by (apply nth_error_Some; congruence).
    rewrite nth_error_app1 by (rewrite map_length; auto).
    rewrite (map_nth_error e _ _ Ny).
    exists r. split; [reflexivity|].
    left. split; auto. apply (no_paren_of_prefix "DUP" id); [simpl; congruence|simpl; congruence|exact P]. }
  destruct (vget_arg id) as [x|] eqn:VG.
  { injection H as <-.
    rewrite (startswith_false_of_vprefix "SWAP" id x), (startswith_false_of_vprefix "DUP" id x)
      by (simpl; auto; congruence).
    exists r. split.
    - cbn [map app]. rewrite (G x) by auto. reflexivity.
    - left. split; auto. eapply vget_not_vset; eauto. }
  destruct (vset_arg id) as [x|] eqn:VS.
  { rewrite (startswith_false_of_vprefix "SWAP" id x), (startswith_false_of_vprefix "DUP" id x)
      by (simpl; auto; congruence).
    destruct st as [|y st]; [discriminate|]. cbn in H.
    destruct (String.eqb_spec x y) as [<-|N]; [|discriminate]. injection H as <-.
    exists (upd_reg r x (e x)). split; [reflexivity|]. right; exists x; auto. }
  exfalso. unfold is_stack_op in K. rewrite CS, CD, VG, VS in K.
  destruct (String.eqb_spec id "POP"); [auto | discriminate].
Qed.

Lemma consume_spec inpt : forall st st', consume inpt st = Ok st' -> st = inpt ++ st'.
Proof.
  induction inpt as [|x inpt IH]; simpl; intros st st' H; [congruence|].
  destruct st as [|y st]; [discriminate|]. apply bind_ok in H as ([] & H1 & H2).
  apply py_assert_ok in H1. apply String.eqb_eq in H1. subst y. f_equal. auto.
Qed.

Lemma exec_user_spec i st st' : exec_user i st = Ok st' ->
  exists actual rest, st = actual ++ rest /\ st' = i_outpt i ++ rest /\
    (actual = i_inpt i \/ i_comm i = true /\ exists a b, i_inpt i = [a; b] /\ actual = [b; a]).
Proof.
  unfold exec_user. intros H. apply bind_ok in H as (rest & H & E). injection E as <-.
  destruct (i_comm i) eqn:C.
  - destruct (i_inpt i) as [|a [|b [|? ?]]] eqn:I; try discriminate.
    apply bind_ok in H as ([s0 st1] & H0 & H). apply bind_ok in H as ([s1 st2] & H1 & H).
    apply bind_ok in H as ([] & H2 & H3). injection H3 as <-.
    destruct st as [|? ?]; [discriminate|]. injection H0 as -> ->.
    destruct st1 as [|? ?]; [discriminate|]. injection H1 as -> ->.
    apply py_assert_ok in H2. rewrite orb_true_iff, !andb_true_iff, !String.eqb_eq in H2.
    exists [s0; s1], st2. split; [reflexivity|]. split; [reflexivity|].
    destruct H2 as [[-> ->]|[-> ->]]; [left; auto | right; split; eauto].
  - exists (i_inpt i), rest. split; [apply consume_spec; auto|]. auto.
Qed.

Lemma firstn_skipn_app {A} (l1 l2 : list A) k : length l1 = k ->
  firstn k (l1 ++ l2) = l1 /\ skipn k (l1 ++ l2) = l2.
Proof.
  intros <-. rewrite firstn_app, skipn_app, Nat.sub_diag, firstn_all, skipn_all. simpl.
  rewrite app_nil_r. auto.
Qed.

Lemma name_ok_kind a : name_ok (a_name a) = true -> a_name a <> "PUSH"%string ->
  a_name a <> "PUSH [tag]"%string -> kind_of sem a = Some KOp.
Proof.
  unfold name_ok, is_stack_op, kind_of. rewrite andb_true_iff, negb_true_iff.
  intros [H _] N1 N2. rewrite !orb_false_iff in H. destruct H as [[[[H1 H2] H3] H4] H5].
  rewrite H1.
  destruct (startswith "SWAP" (a_name a)) eqn:E1; [apply startswith_contains in E1; congruence|].
  destruct (startswith "DUP" (a_name a)) eqn:E2; [apply startswith_contains in E2; congruence|].
  destruct (vget_arg (a_name a)); [discriminate|]. destruct (vset_arg (a_name a)); [discriminate|].
  destruct (String.eqb_spec (a_name a) "PUSH"); [congruence|].
  destruct (String.eqb_spec (a_name a) "PUSH [tag]"); [congruence|]. reflexivity.
Qed.

(** Emission of an operation is faithful: the emitted item does on the machine
    what the operation denotes. *)
Lemma op_step i a vs st w r :
  asm_of_instr i = Ok a -> push_ok i = true -> name_ok (i_disasm i) = true ->
  i_disasm i <> "PUSH [tag]"%string ->
  prim_arity sem (i_disasm i) (imm i) = length (i_inpt i) ->
  length vs = length (i_inpt i) ->
  mstep sem a (mk (vs ++ st) w r)
  = Some (mk (fst (op_denote sem i vs w) ++ st) (snd (op_denote sem i vs w)) r).
Proof.
  intros A P N T Ar L. unfold asm_of_instr in A. unfold push_ok in P. unfold op_denote.
  destruct (String.eqb_spec (i_disasm i) "PUSH0") as [E0|N0].
  { injection A as <-. apply list_eqb_eq in P. rewrite P in L. destruct vs; [|discriminate].
    reflexivity. }
  destruct (String.eqb_spec (i_disasm i) "PUSH") as [E1|N1].
  { replace (is_hex_push (i_disasm i)) with true in A by (rewrite E1; reflexivity).
    apply andb_true_iff in P as [P1 P2]. apply list_eqb_eq in P1. rewrite P1 in L.
    destruct vs; [|discriminate].
    apply bind_ok in A as (v & Hv & A). injection A as <-. unfold value0 in Hv.
    destruct (i_value i) as [[|[z|s] l]|]; try discriminate. injection Hv as <-.
    unfold mstep, kind_of. cbn [a_name a_value asm_from_op_info option_map to_hex_default].
    rewrite E1. cbn -[hex_value hex_drop2 upper]. rewrite hex_value_drop2 by lia. reflexivity. }
  destruct (String.eqb_spec (i_disasm i) "PUSH [TAG]") as [E2|N2].
  { replace (is_hex_push (i_disasm i)) with false in A by (rewrite E2; reflexivity).
    apply andb_true_iff in P as [P1 P2]. apply list_eqb_eq in P1. rewrite P1 in L.
    destruct vs; [|discriminate].
    destruct (i_outpt i) as [|o [|? ?]]; try discriminate.
    destruct (py_int o) as [z|] eqn:Z0; [|discriminate]. cbn in A. injection A as <-.
    unfold mstep, kind_of. cbn [a_name a_value asm_from_op_info option_map].
    cbn -[py_int str_Z upper]. rewrite py_int_str_Z by lia. reflexivity. }
  assert (A' : a = {| a_name := i_disasm i; a_value := imm i |}).
  { unfold imm. destruct (is_hex_push (i_disasm i)) eqn:HX.
    - apply bind_ok in A as (v & Hv & A). injection A as <-. unfold value0 in Hv.
      destruct (i_value i) as [[|v' l]|]; try discriminate. injection Hv as ->. reflexivity.
    - unfold value0 in A. destruct (i_value i) as [[|v l]|]; cbn in A; inversion A; reflexivity. }
  subst a. unfold mstep. rewrite name_ok_kind by auto. cbn [a_name a_value m_stack m_world m_regs mk].
  rewrite Ar, <- L. destruct (firstn_skipn_app vs st (length vs) eq_refl) as [F S].
  rewrite F, S, app_length.
  destruct (length vs <=? length vs + length st) eqn:Le; [|apply Nat.leb_gt in Le; lia].
  destruct (prim sem (i_disasm i) (imm i) vs w) as [outs w']. reflexivity.
Qed.
End Sim.

Lemma mrun_app {V Loc LV} (sem : semantics V Loc LV) c1 c2 m :
  mrun sem (c1 ++ c2) m = match mrun sem c1 m with Some m' => mrun sem c2 m' | None => None end.
Proof.
  revert m; induction c1 as [|a c1 IH]; intros m; simpl; auto. destruct (mstep sem a m); auto.
Qed.

Section Main.
Context {V Loc LV : Type}.
Variable sem : semantics V Loc LV.
Variable fp : footprint V Loc.
Variable s : sfs.
Variable e0 : string -> V.
Variable w0 : Loc -> LV.
Variable r0 : string -> V.
Variable below : list V.
Variable ids : list string.
Variable code : list asm.
Variable junk : bool.
Let p := s_instrs s.
Let ef := fst (exec_prog sem p (e0, w0)).

Hypothesis Hwf : wf_sfs s = true.
Hypothesis Hacc : check_execution_from_ids s ids junk = Ok true.
Hypothesis Hbnd : check_dup_swap 16 ids = Ok tt.
Hypothesis Hidsok : ids_ok ids = true.
Hypothesis Hcode : asm_from_ids p ids = Ok code.
Hypothesis Hrsp : forall i, In i p -> respects sem fp i.
Hypothesis Hcover : deps_cover fp (s_deps s) p ef.
Hypothesis Hget : vgets_ok ids r0 ef.

Lemma wf_parts : NoDup (map i_id p) /\ NoDup (outputs p) /\ defs_before_uses p = true
  /\ (forall x, In x (s_src s) -> ~ In x (outputs p))
  /\ (forall i, In i p -> name_ok (i_id i) = true /\ name_ok (i_disasm i) = true
        /\ i_disasm i <> "PUSH [tag]"%string /\ push_ok i = true).
Proof.
  unfold wf_sfs in Hwf. fold p in Hwf. rewrite !andb_true_iff in Hwf.
  destruct Hwf as [[[[H1 H2] H3] H4] H5]. rewrite forallb_forall in H4, H5.
  repeat split.
  - apply (ids_unique_NoDup _ _ H1).
  - apply (vars_unique_NoDup _ _ H2).
  - exact H3.
  - intros x Hx. specialize (H4 _ Hx). apply negb_true_iff in H4. apply mem_false; auto.
  - specialize (H5 _ H). rewrite !andb_true_iff in H5; tauto.
  - specialize (H5 _ H). rewrite !andb_true_iff in H5; tauto.
  - specialize (H5 _ H). rewrite !andb_true_iff, negb_true_iff in H5.
    destruct H5 as [[_ H5] _]. apply String.eqb_neq in H5; auto.
  - specialize (H5 _ H). rewrite !andb_true_iff in H5; tauto.
Qed.

Lemma acc_parts : exists st, run_symbolic ids p (s_src s) = Ok st
  /\ (if junk then firstn (length (s_tgt s)) st else st) = s_tgt s
  /\ check_deps ids (s_deps s) = Ok true /\ check_counts ids p = Ok tt.
Proof.
  unfold check_execution_from_ids in Hacc. fold p in Hacc.
  apply bind_ok in Hacc as (st & H1 & H). apply bind_ok in H as ([] & H2 & H).
  apply bind_ok in H as (d & H3 & H). apply bind_ok in H as ([] & H4 & H).
  apply bind_ok in H as ([] & H5 & _).
  apply py_assert_ok in H2, H4. apply list_eqb_eq in H2. subst d. exists st. auto.
Qed.

Lemma not_nop id st st' : execute_instr_id id st p = Ok st' -> id <> "NOP"%string.
Proof.
  intros H ->. cbn in H. apply bind_ok in H as (i & Hi & _). apply of_option_ok in Hi.
  apply find_instr_In in Hi as [Hi E]. destruct wf_parts as (_ & _ & _ & _ & W).
  destruct (W i Hi) as [N _]. rewrite E in N. discriminate N.
Qed.

Definition known (x : string) : Prop :=
  In x (s_src s) \/ In x (outputs p) \/ exists id, In id ids /\ vget_arg id = Some x.

Definition reg_inv (pre : list string) (r : string -> V) : Prop :=
  forall x, (r x = ef x) \/ (r x = r0 x /\ ~ exists id, In id pre /\ vset_arg id = Some x).

Lemma known_step id st st' : In id ids -> execute_instr_id id st p = Ok st' ->
  (forall x, In x st -> known x) -> forall x, In x st' -> known x.
Proof.
  intros Hid H K. unfold execute_instr_id in H.
  destruct (String.eqb id "POP").
  { destruct st as [|y st]; [discriminate|]. cbn in H. injection H as <-.
    intros x Hx. apply K; simpl; auto. }
  destruct (contains "SWAP" id).
  { apply bind_ok in H as (n & _ & H). unfold exec_swap in H. apply bind_ok in H as ([] & _ & H).
    destruct st as [|y st]; [discriminate|].
    destruct (nth_error (y :: st) (Z.to_nat n)) as [z|] eqn:Z0; [|discriminate].
    injection H as <-. intros x Hx. apply In_set_nth in Hx as [->|Hx]; [apply K; simpl; auto|].
    destruct Hx as [<-|Hx]; [apply K; eapply nth_error_In; eauto|apply K; simpl; auto]. }
  destruct (contains "DUP" id).
  { apply bind_ok in H as (n & _ & H). unfold exec_dup in H. apply bind_ok in H as ([] & _ & H).
    destruct (nth_error st (Z.to_nat (n - 1))) as [z|] eqn:Z0; [|discriminate].
    injection H as <-. intros x [<-|Hx]; apply K; auto. eapply nth_error_In; eauto. }
  destruct (vget_arg id) as [y|] eqn:G.
  { injection H as <-. intros x [<-|Hx]; [|auto]. right; right. eauto. }
  destruct (vset_arg id) as [y|].
  { destruct st as [|z st]; [discriminate|]. cbn in H.
    destruct (String.eqb y z); [|discriminate]. injection H as <-.
    intros x Hx; apply K; simpl; auto. }
  apply bind_ok in H as (i & Hi & H). apply of_option_ok in Hi. apply find_instr_In in Hi as [Hi _].
  apply exec_user_spec in H as (act & rest & -> & -> & _).
  intros x Hx. apply in_app_iff in Hx as [Hx|Hx].
  - right; left. unfold outputs. apply in_flat_map; eauto.
  - apply K. apply in_app_iff; auto.
Qed.

Lemma run_prefix pre : forall post st, ids = pre ++ post ->
  run_symbolic pre p (s_src s) = Ok st ->
  exists c1 w r, map_result (id_to_asm_bytecode p) pre = Ok c1
    /\ mrun sem c1 (mk (map e0 (s_src s) ++ below) w0 r0) = Some (mk (map ef st ++ below) w r)
    /\ world_inv sem fp p e0 w0 pre w /\ reg_inv pre r
    /\ (forall x, In x st -> known x)
    /\ (forall id, In id pre -> id <> "NOP"%string).
Proof.
  destruct wf_parts as (Nid & Nout & Hdef & Hsrc & Hwfi).
  destruct acc_parts as (stf & _ & _ & Hdeps & Hcnt).
  induction pre as [|id pre IH] using rev_ind; intros post st E H.
  - injection H as <-. exists [], w0, r0. split; [reflexivity|]. split.
    + simpl. f_equal. f_equal. f_equal. apply map_ext_in. intros x Hx.
      symmetry. apply (exec_prog_notin sem p (e0, w0)). auto.
    + split; [apply world_inv_init|]. split; [|split].
      * intros x. right. split; auto. intros (id & [] & _).
      * intros x Hx. left; auto.
      * intros id [].
  - rewrite <- app_assoc in E. cbn [app] in E.
    unfold run_symbolic in H. rewrite for_each_app in H. apply bind_ok in H as (st1 & H1 & H2).
    cbn [for_each] in H2. apply bind_ok in H2 as (st2 & H2 & H3). injection H3 as ->.
    destruct (IH (id :: post) st1 E H1) as (c1 & w & r & M & R & WI & RI & K & NN).
    assert (Hid : In id ids) by (rewrite E; apply in_app_iff; simpl; auto).
    pose proof (not_nop _ _ _ H2) as Nnop.
    assert (NN' : forall x, In x (pre ++ [id]) -> x <> "NOP"%string).
    { intros x Hx. apply in_app_iff in Hx as [Hx|[<-|[]]]; auto. }
    pose proof (known_step _ _ _ Hid H2 K) as K'.
    assert (MA : forall a, id_to_asm_bytecode p id = Ok a ->
      map_result (id_to_asm_bytecode p) (pre ++ [id]) = Ok (c1 ++ [a])).
    { intros a Ha. clear - M Ha. revert c1 M. induction pre as [|y pre IH]; simpl; intros c1 M.
      - injection M as <-. rewrite Ha. reflexivity.
      - apply bind_ok in M as (z & Hz & M). apply bind_ok in M as (zs & Hzs & M).
        injection M as <-. rewrite Hz. cbn [bind]. rewrite (IH _ Hzs). reflexivity. }
    destruct (is_stack_op id) eqn:SO.
    + (* stack operation *)
      assert (NF : find_last_instr id p = None).
      { apply find_last_none. intros i Hi Ei. destruct (Hwfi i Hi) as [Q _]. rewrite Ei in Q.
        unfold name_ok in Q. rewrite SO in Q. discriminate. }
      assert (NPush : contains "PUSH" id = false).
      { unfold ids_ok in Hidsok. rewrite forallb_forall in Hidsok. specialize (Hidsok _ Hid).
        rewrite SO in Hidsok. simpl in Hidsok. apply negb_true_iff; auto. }
      assert (A : id_to_asm_bytecode p id = Ok (asm_from_op_info id None)).
      { unfold id_to_asm_bytecode. rewrite NF, NPush. reflexivity. }
      assert (G : forall x, vget_arg id = Some x -> r x = ef x).
      { intros x Hx. destruct (RI x) as [RX|[RX NS]]; auto.
        destruct (Hget pre id post x E Hx) as [S|S]; [exfalso; auto | congruence]. }
      destruct (stack_step sem p ef id st1 st w r below SO
                 (check_dup_swap_In _ _ Hbnd _ Hid) H2 G) as (r' & MS & RR).
      exists (c1 ++ [asm_from_op_info id None]), w, r'. split; [auto|]. split.
      { rewrite mrun_app, R. simpl. rewrite MS. reflexivity. }
      split; [|split; [|split; auto]].
      * intros l. destruct (WI l) as (k & Lk & Ew & C). exists k. split; auto. split; auto.
        intros j i Hj Wj. rewrite (C j i Hj Wj), in_app_iff. simpl. split; auto.
        intros [Q|[Q|[]]]; auto. exfalso.
        assert (Hi : In i p) by (eapply nth_error_In; eauto).
        destruct (Hwfi i Hi) as [Q' _]. rewrite <- Q in Q'. unfold name_ok in Q'.
        rewrite SO in Q'. discriminate.
      * intros x. destruct RR as [[VS ->]|(y & VS & ->)].
        -- destruct (RI x) as [RX|[RX NS]]; auto. right. split; auto.
           intros (id' & Hin & Hv). apply in_app_iff in Hin as [Hin|[<-|[]]]; [|congruence].
           apply NS; eauto.
        -- unfold upd_reg. destruct (String.eqb_spec x y) as [->|Nxy]; [left; auto|].
           destruct (RI x) as [RX|[RX NS]]; auto. right. split; auto.
           intros (id' & Hin & Hv). apply in_app_iff in Hin as [Hin|[<-|[]]]; [|congruence].
           apply NS; eauto.
    + (* block operation *)
      unfold is_stack_op in SO. rewrite !orb_false_iff in SO.
      destruct SO as [[[[S1 S2] S3] S4] S5].
      unfold execute_instr_id in H2. rewrite S1, S2, S3 in H2.
      destruct (vget_arg id) eqn:VG; [discriminate|]. destruct (vset_arg id) eqn:VS; [discriminate|].
      apply bind_ok in H2 as (i & Hi & H2). apply of_option_ok in Hi.
      apply find_instr_In in Hi as [Hi Eid].
      destruct (Hwfi i Hi) as (_ & N2 & N3 & N4).
      assert (A : id_to_asm_bytecode p id = asm_of_instr i).
      { unfold id_to_asm_bytecode. rewrite <- Eid, find_last_unique; auto. }
      assert (exists a, asm_of_instr i = Ok a) as (a & Ha).
      { clear - Hcode E A Hid Nnop. unfold asm_from_ids in Hcode. rewrite E in Hcode.
        rewrite filter_app in Hcode. apply map_result_app in Hcode as (z1 & z2 & _ & H & _).
        cbn [filter] in H. apply String.eqb_neq in Nnop. rewrite Nnop in H. cbn [negb map_result] in H.
        apply bind_ok in H as (a & H & _). exists a. congruence. }
      destruct (In_nth_error _ _ Hi) as (j & Hj).
      subst id.
      destruct (world_step sem fp p e0 w0 Hrsp Nout Hdef ids (s_deps s) Nid Hdeps Hcnt Hcover
                  pre post j i w E Hj WI) as [Houts Hworld].
      unfold args in Houts, Hworld.
      change (CheckerProofs.envf sem p e0 w0) with ef in Houts, Hworld.
      apply exec_user_spec in H2 as (act & rest & -> & -> & Hact).
      assert (OD : op_denote sem i (map ef act) w = op_denote sem i (map ef (i_inpt i)) w).
      { destruct Hact as [->|(C & x & y & I & ->)]; auto. rewrite I. simpl.
        apply (rsp_comm _ _ _ (Hrsp i Hi)); auto. }
      assert (LA : length (map ef act) = length (i_inpt i)).
      { rewrite map_length. destruct Hact as [->|(C & x & y & I & ->)]; auto. rewrite I; auto. }
      exists (c1 ++ [a]), (snd (op_denote sem i (map ef (i_inpt i)) w)), r.
      split; [apply MA; congruence|]. split; [|split; [|split; [|split; auto]]].
      * rewrite mrun_app, R. cbn [mrun].
        rewrite !map_app, <- !app_assoc.
        rewrite (op_step sem i a _ _ _ _ Ha N4 N2 N3 (rsp_nin _ _ _ (Hrsp i Hi)) LA).
        rewrite OD, Houts. reflexivity.
      * exact Hworld.
      * intros x. destruct (RI x) as [RX|[RX NS]]; auto. right. split; auto.
        intros (id' & Hin & Hv). apply in_app_iff in Hin as [Hin|[<-|[]]]; [|congruence].
        apply NS; eauto.
Qed.

Theorem checker_sound :
  exists st m, mrun sem code (mk (map e0 (s_src s) ++ below) w0 r0) = Some m
    /\ m_stack m = map ef st ++ below
    /\ (if junk then firstn (length (s_tgt s)) st = s_tgt s else st = s_tgt s)
    /\ (forall x, In x st -> known x)
    /\ (forall l, m_world m l = snd (exec_prog sem p (e0, w0)) l).
Proof.
  destruct wf_parts as (Nid & Nout & Hdef & Hsrc & Hwfi).
  destruct acc_parts as (stf & Hrun & Htgt & Hdeps & Hcnt).
  destruct (run_prefix ids [] stf ltac:(rewrite app_nil_r; auto) Hrun)
    as (c1 & w & r & M & R & WI & RI & K & NN).
  assert (c1 = code).
  { unfold asm_from_ids in Hcode.
    replace (filter (fun id => negb (String.eqb id "NOP")) ids) with ids in Hcode; [congruence|].
    clear - NN. induction ids as [|x l IH]; auto. cbn [filter].
    destruct (String.eqb_spec x "NOP") as [->|N]; [exfalso; apply (NN "NOP"%string); simpl; auto|].
    cbn [negb]. f_equal. apply IH. intros id Hid. apply NN; simpl; auto. }
  subst c1. exists stf, (mk (map ef stf ++ below) w r). split; auto. split; [reflexivity|].
  split; [destruct junk; auto|]. split; auto. cbn [m_world mk].
  eapply world_inv_final; eauto.
Qed.
End Main.
