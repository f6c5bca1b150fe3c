(** The code with accesses to memory in place of "VGET" and "VSET" follows the
    code of the validated ids. *)
From Coq Require Import Relations.
From Verif Require Import Base Lexical SymExecModel AsmModel MachineSpec GreedyTailModel FootprintSpec LexicalProofs CheckerProofs CheckerSim
  DepsModel SpecModel SpecSem SpecProofs BlockSpec UtilModel UtilProps RegModel RegsSpec.
Open Scope string_scope. Open Scope list_scope.

(** The items of the accesses. *)
Lemma until_space_no s : ~ In " "%char (list_ascii_of_string s) -> until_space s = s.
Proof.
  induction s as [|c s IH]; cbn [list_ascii_of_string until_space]; intros N; [reflexivity|].
  destruct (Ascii.eqb_spec c " "%char) as [->|_]; [destruct N; left; reflexivity|]. rewrite IH; [reflexivity|]. intros H. apply N. right. exact H.
Qed.
Lemma hex_uint_chars u c : In c (list_ascii_of_string (HexadecimalString.NilEmpty.string_of_uint u)) -> c <> " "%char /\ c <> "_"%char.
Proof. induction u; cbn; intros H; [destruct H|..]; (destruct H as [<-|H]; [split; discriminate|auto]). Qed.
Lemma hex_chars z c : (0 <= z)%Z -> In c (list_ascii_of_string (hex_drop2 z)) -> c <> " "%char /\ c <> "_"%char.
Proof.
  intros P H. destruct z as [|p|p]; [| |lia]; cbn [hex_drop2] in H.
  - cbn in H. destruct H as [<-|[]]. split; discriminate.
  - apply hex_uint_chars with (N.to_hex_uint (Z.to_N (Z.pos p))).
    unfold HexadecimalString.NilZero.string_of_uint in H. destruct (N.to_hex_uint (Z.to_N (Z.pos p))) eqn:E; try exact H.
    cbn in H. destruct H as [<-|[]]. exfalso. cbn [Z.to_N] in E. exact (LexicalProofs.to_hex_uint_nonnil _ E).
Qed.

Lemma held_set_In r x h r' y : In (r', y) (held_set r x h) <-> (r' = r /\ y = x) \/ (r' <> r /\ In (r', y) h).
Proof.
  unfold held_set. cbn [In]. rewrite filter_In. cbn [fst]. split.
  - intros [[= <- <-]|[H N]]; [left; auto|right]. apply negb_true_iff, Z.eqb_neq in N. auto.
  - intros [[-> ->]|[N H]]; [left; reflexivity|right]. split; [exact H|]. apply negb_true_iff, Z.eqb_neq. exact N.
Qed.
Lemma existsb_held h r x : existsb (fun p => (fst p =? r)%Z && String.eqb (snd p) x) h = true -> In (r, x) h.
Proof.
  intros H. apply existsb_exists in H as ([r' y] & H & E). cbn in E. apply andb_true_iff in E as [E1 E2].
  apply Z.eqb_eq in E1. apply String.eqb_eq in E2. subst. exact H.
Qed.

Section Lowered.
Context {V LV : Type}.
Variable sem : semantics V place LV.
Variable fp : footprint V place.
Variable s : sfs.
Variable e0 : string -> V.
Variable w0 : place -> LV.
Variable below : list V.
Variable ids : list string.
Variable code : list asm.
Variable junk : bool.
Variable load : Z -> (place -> LV) -> V.
Variable R : list Z.
Notation p := (s_instrs s).
Notation ef := (fst (exec_prog sem p (e0, w0))).
Notation mk := (@CheckerSim.mk V place LV).

Hypothesis Hwf : wf_sfs s = true.
Hypothesis Hacc : check_execution_from_ids s ids junk = Ok true.
Hypothesis Hbnd : check_dup_swap 16 ids = Ok tt.
Hypothesis Hidsok : ids_ok ids = true.
Hypothesis Hcode : asm_from_ids p ids = Ok code.
Hypothesis Hrsp : forall i, In i p -> respects sem fp i.
Hypothesis Hcover : deps_cover fp (s_deps s) p ef.
Hypothesis Hids : forall i, In i p -> exists op k, i_id i = id_of op k.
Hypothesis HR : register_ops sem load R.
Hypothesis Havoid : forall i l, In i p -> in_registers R l -> ~ reads fp i (map ef (i_inpt i)) l /\ writes fp i (map ef (i_inpt i)) l = false.
(** The values kept are those of variables of the program. *)
Variable good : string -> Prop.
Hypothesis Hgood_src : forall x, In x (s_src s) -> good x.
Hypothesis Hgood_out : forall x, In x (outputs p) -> good x.

Lemma Hget : vgets_ok ids ef ef.
Proof. intros pre id post x _ _. right. reflexivity. Qed.

Lemma not_in_ids id : ~ In "_"%char (list_ascii_of_string id) -> find_last_instr id p = None.
Proof.
  intros N. apply find_last_none. intros i Hi E. destruct (Hids i Hi) as (op & k & Q). apply N. rewrite <- E, Q. unfold id_of.
  clear. induction op as [|c op IH]; cbn; [left; reflexivity|right; exact IH].
Qed.
Lemma push_asm r : (0 <= r)%Z -> id_to_asm_bytecode p ("PUSH " ++ hex_drop2 r)%string = Ok {| a_name := "PUSH"; a_value := Some (upper (hex_drop2 r)) |}.
Proof.
  intros P. unfold id_to_asm_bytecode. rewrite not_in_ids.
  - replace (contains "PUSH" ("PUSH " ++ hex_drop2 r)%string) with true by reflexivity.
    replace (second_word ("PUSH " ++ hex_drop2 r)%string) with (Some (until_space (hex_drop2 r))) by reflexivity.
    rewrite until_space_no; [reflexivity|]. intros H. exact (proj1 (hex_chars r _ P H) eq_refl).
  - intros H. cbn in H. repeat (destruct H as [H|H]; [discriminate|]). exact (proj2 (hex_chars r _ P H) eq_refl).
Qed.
Lemma load_asm : id_to_asm_bytecode p "MLOAD" = Ok {| a_name := "MLOAD"; a_value := None |}.
Proof. unfold id_to_asm_bytecode. rewrite not_in_ids; [reflexivity|]. cbn. intuition discriminate. Qed.
Lemma store_asm : id_to_asm_bytecode p "MSTORE" = Ok {| a_name := "MSTORE"; a_value := None |}.
Proof. unfold id_to_asm_bytecode. rewrite not_in_ids; [reflexivity|]. cbn. intuition discriminate. Qed.

Lemma push_step r st w (g : string -> V) : (0 <= r)%Z -> mstep sem {| a_name := "PUSH"; a_value := Some (upper (hex_drop2 r)) |} (mk st w g) = Some (mk (word_of_Z sem r :: st) w g).
Proof. intros P. unfold mstep, kind_of. cbn -[hex_value hex_drop2 upper]. rewrite hex_value_drop2 by exact P. reflexivity. Qed.
Lemma load_step r st w (g : string -> V) : In r R -> mstep sem {| a_name := "MLOAD"; a_value := None |} (mk (word_of_Z sem r :: st) w g) = Some (mk (load r w :: st) w g).
Proof.
  intros Hr. assert (Ne : R <> []) by (intros E; rewrite E in Hr; destruct Hr). destruct (ro_arity _ _ _ HR Ne) as [A _].
  unfold mstep. cbn [kind_of a_name a_value CheckerSim.mk m_stack m_world m_regs]. replace (kind_of sem {| a_name := "MLOAD"; a_value := None |}) with (@Some (kind (V := V)) KOp) by reflexivity.
  rewrite A. cbn [length Nat.leb firstn skipn]. rewrite (ro_load _ _ _ HR r w Hr). reflexivity.
Qed.
Lemma store_step r v st w (g : string -> V) : In r R -> exists w', mstep sem {| a_name := "MSTORE"; a_value := None |} (mk (word_of_Z sem r :: v :: st) w g) = Some (mk st w' g)
  /\ load r w' = v /\ forall l, ~ register_has r l -> w' l = w l.
Proof.
  intros Hr. assert (Ne : R <> []) by (intros E; rewrite E in Hr; destruct Hr). destruct (ro_arity _ _ _ HR Ne) as [_ A].
  destruct (ro_store _ _ _ HR r v w Hr) as (S1 & S2 & S3).
  unfold mstep. cbn [a_name a_value CheckerSim.mk m_stack m_world m_regs]. replace (kind_of sem {| a_name := "MSTORE"; a_value := None |}) with (@Some (kind (V := V)) KOp) by reflexivity.
  rewrite A. cbn [length Nat.leb firstn skipn]. destruct (prim sem "MSTORE" None [word_of_Z sem r; v] w) as [o w']. cbn [fst snd] in *. subst o. exists w'. auto.
Qed.

(** What the symbolic execution does with the accesses. *)
Lemma vget_exec id x st st' : vget_arg id = Some x -> execute_instr_id id st p = Ok st' -> st' = x :: st.
Proof.
  intros G H. unfold execute_instr_id in H. destruct (String.eqb_spec id "POP") as [->|_]; [discriminate G|].
  destruct (contains "SWAP" id) eqn:CS.
  { apply bind_ok in H as (n & Hn & _). apply of_option_ok in Hn. pose proof (swap_prefix _ _ CS Hn) as P.
    rewrite (startswith_false_of_vprefix "SWAP" id x) in P; [discriminate|simpl; congruence|simpl; congruence|auto]. }
  destruct (contains "DUP" id) eqn:CD.
  { apply bind_ok in H as (n & Hn & _). apply of_option_ok in Hn. pose proof (dup_prefix _ _ CD Hn) as P.
    rewrite (startswith_false_of_vprefix "DUP" id x) in P; [discriminate|simpl; congruence|simpl; congruence|auto]. }
  rewrite G in H. injection H as <-. reflexivity.
Qed.
Lemma vset_exec id x st st' : vset_arg id = Some x -> execute_instr_id id st p = Ok st' -> st = x :: st'.
Proof.
  intros G H. unfold execute_instr_id in H. destruct (String.eqb_spec id "POP") as [->|_]; [discriminate G|].
  destruct (contains "SWAP" id) eqn:CS.
  { apply bind_ok in H as (n & Hn & _). apply of_option_ok in Hn. pose proof (swap_prefix _ _ CS Hn) as P.
    rewrite (startswith_false_of_vprefix "SWAP" id x) in P; [discriminate|simpl; congruence|simpl; congruence|auto]. }
  destruct (contains "DUP" id) eqn:CD.
  { apply bind_ok in H as (n & Hn & _). apply of_option_ok in Hn. pose proof (dup_prefix _ _ CD Hn) as P.
    rewrite (startswith_false_of_vprefix "DUP" id x) in P; [discriminate|simpl; congruence|simpl; congruence|auto]. }
  destruct (vget_arg id) as [y|] eqn:VG; [apply vget_not_vset in VG; congruence|]. rewrite G in H.
  destruct st as [|y st]; [discriminate|]. cbn in H. destruct (String.eqb_spec x y) as [->|N]; [|discriminate]. injection H as <-. reflexivity.
Qed.

(** The run of the validated ids, up to a point. *)
Definition named (pre : list string) (st : list string) (w : place -> LV) : Prop :=
  exists c r, map_result (id_to_asm_bytecode p) pre = Ok c /\ mrun sem c (mk (map e0 (s_src s) ++ below) w0 ef) = Some (mk (map ef st ++ below) w r).

Lemma map_result_snoc {A B} (f : A -> result B) l a : forall bs b, map_result f l = Ok bs -> f a = Ok b -> map_result f (l ++ [a]) = Ok (bs ++ [b]).
Proof.
  induction l as [|y l IH]; cbn; intros bs b H E; [injection H as <-; rewrite E; reflexivity|].
  apply bind_ok in H as (z & Hz & H). apply bind_ok in H as (zs & Hzs & H). injection H as <-. rewrite Hz. cbn. rewrite (IH _ _ Hzs E). reflexivity.
Qed.

Lemma named_step pre id post st st' w : ids = pre ++ id :: post -> run_symbolic pre p (s_src s) = Ok st -> execute_instr_id id st p = Ok st' -> named pre st w ->
  exists w' r r' a, named (pre ++ [id]) st' w' /\ id_to_asm_bytecode p id = Ok a /\ mstep sem a (mk (map ef st ++ below) w r) = Some (mk (map ef st' ++ below) w' r').
Proof.
  intros E H1 H2 (c & r & M & Rn).
  assert (H3 : run_symbolic (pre ++ [id]) p (s_src s) = Ok st').
  { unfold run_symbolic in *. rewrite for_each_app, H1. cbn [bind for_each]. rewrite H2. reflexivity. }
  destruct (run_prefix sem fp s e0 w0 ef below ids code junk Hwf Hacc Hbnd Hidsok Hcode Hrsp Hcover Hget (pre ++ [id]) post st') as (c1 & w' & r' & M1 & R1 & _);
    [rewrite <- app_assoc; exact E|exact H3|].
  pose proof M1 as M1'. apply map_result_app in M1 as (z1 & z2 & Q1 & Q2 & Ec). rewrite M in Q1. injection Q1 as <-. cbn [map_result] in Q2. apply bind_ok in Q2 as (a & Ha & Q2). injection Q2 as <-.
  subst c1. exists w', r, r', a. split; [exists (c ++ [a]), r'; split; assumption|]. split; [exact Ha|].
  rewrite mrun_app, Rn in R1. cbn [mrun] in R1. destruct (mstep sem a _) as [m|]; [exact R1|discriminate].
Qed.

Lemma named_world id st st' w r w' r' stk : is_stack_op id = true -> bound_ok id -> execute_instr_id id st p = Ok st' ->
  mstep sem (asm_from_op_info id None) (mk (map ef st ++ below) w r) = Some (mk stk w' r') -> w' = w.
Proof.
  intros S B E H. destruct (vget_arg id) as [x|] eqn:VG; [|destruct (vset_arg id) as [x|] eqn:VS].
  - unfold mstep, kind_of in H. cbn [asm_from_op_info a_name a_value option_map] in H. destruct (String.eqb_spec id "POP") as [->|_]; [discriminate VG|].
    rewrite (startswith_false_of_vprefix "SWAP" id x), (startswith_false_of_vprefix "DUP" id x) in H by (simpl; auto; congruence). rewrite VG in H. injection H as _ <- _. reflexivity.
  - unfold mstep, kind_of in H. cbn [asm_from_op_info a_name a_value option_map] in H. destruct (String.eqb_spec id "POP") as [->|_]; [discriminate VS|].
    rewrite (startswith_false_of_vprefix "SWAP" id x), (startswith_false_of_vprefix "DUP" id x) in H by (simpl; auto; congruence). rewrite VG, VS in H.
    cbn [CheckerSim.mk m_stack m_world m_regs] in H. destruct (map ef st ++ below); [discriminate|]. injection H as _ <- _. reflexivity.
  - destruct (stack_step sem p ef id st st' w r below S B E) as (r1 & M & _); [congruence|]. rewrite M in H. injection H as _ <- _. reflexivity.
Qed.

Lemma apart_register r r' l : In r R -> In r' R -> r <> r' -> register_has r' l -> ~ register_has r l.
Proof. intros H H' N K Q. destruct l; cbn in K, Q; try contradiction. destruct (ro_apart _ _ _ HR r r' H H' N); lia. Qed.

Definition outside (w w' : place -> LV) : Prop := forall l, ~ in_registers R l -> w l = w' l.

Lemma good_step id st st' : execute_instr_id id st p = Ok st' -> (forall x, vget_arg id = Some x -> good x) ->
  (forall x, In x st -> good x) -> forall x, In x st' -> good x.
Proof.
  intros H Gg K. unfold execute_instr_id in H. destruct (String.eqb id "POP").
  { destruct st as [|y st]; [discriminate|]. cbn in H. injection H as <-. intros x Hx. apply K; simpl; auto. }
  destruct (contains "SWAP" id).
  { apply bind_ok in H as (n & _ & H). unfold exec_swap in H. apply bind_ok in H as ([] & _ & H). destruct st as [|y st]; [discriminate|].
    destruct (nth_error (y :: st) (Z.to_nat n)) as [z|] eqn:Z0; [|discriminate].
    injection H as <-. intros x Hx. apply In_set_nth in Hx as [->|Hx]; [apply K; simpl; auto|].
    destruct Hx as [<-|Hx]; [apply K; eapply nth_error_In; eauto|apply K; simpl; auto]. }
  destruct (contains "DUP" id).
  { apply bind_ok in H as (n & _ & H). unfold exec_dup in H. apply bind_ok in H as ([] & _ & H).
    destruct (nth_error st (Z.to_nat (n - 1))) as [z|] eqn:Z0; [|discriminate].
    injection H as <-. intros x [<-|Hx]; apply K; auto. eapply nth_error_In; eauto. }
  destruct (vget_arg id) as [y|] eqn:G.
  { injection H as <-. intros x [<-|Hx]; auto. }
  destruct (vset_arg id) as [y|].
  { destruct st as [|z st]; [discriminate|]. cbn in H. destruct (String.eqb y z); [|discriminate]. injection H as <-. intros x Hx; apply K; simpl; auto. }
  apply bind_ok in H as (i & Hi & H). apply of_option_ok in Hi. apply find_instr_In in Hi as [Hi _].
  apply exec_user_spec in H as (act & rest & -> & -> & _).
  intros x Hx. apply in_app_iff in Hx as [Hx|Hx]; [apply Hgood_out; unfold outputs; apply in_flat_map; eauto|]. apply K. apply in_app_iff; auto.
Qed.

Lemma run_lowered g : forall post pre st stf w w2 rs h hf, ids = pre ++ post -> run_symbolic pre p (s_src s) = Ok st ->
  for_each (fun st id => execute_instr_id id st p) post st = Ok stf -> named pre st w -> track post rs h = Some hf -> incl rs R ->
  outside w w2 -> (forall r x, In (r, x) h -> In r R /\ good x /\ load r w2 = ef x) -> (forall x, In x st -> good x) ->
  exists c2 wf wf2, map_result (id_to_asm_bytecode p) (lowered post rs) = Ok c2 /\ named ids stf wf
    /\ mrun sem c2 (mk (map ef st ++ below) w2 g) = Some (mk (map ef stf ++ below) wf2 g) /\ outside wf wf2
    /\ (forall r x, In (r, x) hf -> In r R /\ good x /\ load r wf2 = ef x) /\ (forall r, In r R -> ~ In r rs -> load r wf2 = load r w2).
Proof.
  induction post as [|id post IH]; intros pre st stf w w2 rs h hf E H1 H2 Nm T I O Hh Gs.
  { rewrite app_nil_r in E. subst pre. cbn in H2, T. injection H2 as <-. injection T as <-. exists [], w, w2. cbn. auto 10. }
  cbn [for_each] in H2. apply bind_ok in H2 as (st1 & H2 & H3).
  destruct (named_step pre id post st st1 w E H1 H2 Nm) as (w' & r0 & r1 & a & Nm' & Ha & Ms).
  assert (Hid : In id ids) by (rewrite E; apply in_app_iff; simpl; auto).
  assert (E' : ids = (pre ++ [id]) ++ post) by (rewrite <- app_assoc; exact E).
  assert (H1' : run_symbolic (pre ++ [id]) p (s_src s) = Ok st1).
  { unfold run_symbolic in *. rewrite for_each_app, H1. cbn [bind for_each]. rewrite H2. reflexivity. }
  assert (Bd : bound_ok id) by exact (check_dup_swap_In _ _ Hbnd _ Hid).
  destruct (wf_parts s Hwf) as (Nid & Nout & Hdef & Hsrc & Hwfi).
  destruct (is_stack_op id) eqn:SO.
  - (* no operation of the block *)
    assert (NF : find_last_instr id p = None).
    { apply find_last_none. intros i Hi Ei. destruct (Hwfi i Hi) as [Q _]. rewrite Ei in Q. unfold name_ok in Q. rewrite SO in Q. discriminate. }
    assert (NPush : contains "PUSH" id = false).
    { unfold ids_ok in Hidsok. rewrite forallb_forall in Hidsok. specialize (Hidsok _ Hid). rewrite SO in Hidsok. simpl in Hidsok. apply negb_true_iff; auto. }
    assert (A : id_to_asm_bytecode p id = Ok (asm_from_op_info id None)) by (unfold id_to_asm_bytecode; rewrite NF, NPush; reflexivity).
    rewrite A in Ha. injection Ha as <-.
    pose proof (named_world id st st1 w r0 w' r1 _ SO Bd H2 Ms) as ->.
    cbn [track] in T. cbn [lowered].
    destruct (vget_arg id) as [x|] eqn:VG; [|destruct (vset_arg id) as [x|] eqn:VS].
    + (* a value is fetched *)
      destruct rs as [|r rs]; [discriminate|]. destruct (existsb _ h) eqn:Ex; [|discriminate]. apply existsb_held in Ex.
      destruct (Hh r x Ex) as (Hr & Gx & Lx). pose proof (ro_address _ _ _ HR r Hr) as Pr.
      pose proof (vget_exec id x st st1 VG H2) as ->.
      destruct (IH (pre ++ [id]) (x :: st) stf w w2 rs h hf E' H1' H3 Nm' T) as (c2 & wf & wf2 & M & Nf & Rn & Of & Hf & Un); auto.
      { intros q Hq. apply I. right. exact Hq. }
      { intros y [<-|Hy]; auto. }
      exists ({| a_name := "PUSH"; a_value := Some (upper (hex_drop2 r)) |} :: {| a_name := "MLOAD"; a_value := None |} :: c2), wf, wf2.
      split; [unfold emit_vget; cbn [app map_result]; rewrite push_asm by exact Pr; cbn [bind]; rewrite load_asm; cbn [bind]; rewrite M; reflexivity|].
      split; [exact Nf|]. split; [cbn [mrun]; rewrite push_step by exact Pr; rewrite load_step by exact Hr; rewrite Lx; exact Rn|].
      split; [exact Of|]. split; [exact Hf|]. intros q Hq Nq. apply Un; [exact Hq|]. intros Q. apply Nq. right. exact Q.
    + (* a value is kept *)
      destruct rs as [|r rs]; [discriminate|]. assert (Hr : In r R) by (apply I; left; reflexivity). pose proof (ro_address _ _ _ HR r Hr) as Pr.
      pose proof (vset_exec id x st st1 VS H2) as ->.
      destruct (store_step r (ef x) (map ef st1 ++ below) w2 g Hr) as (w3 & Ms3 & L3 & O3).
      destruct (IH (pre ++ [id]) st1 stf w w3 rs (held_set r x h) hf E' H1' H3 Nm' T) as (c2 & wf & wf2 & M & Nf & Rn & Of & Hf & Un); auto.
      { intros q Hq. apply I. right. exact Hq. }
      { intros l N. rewrite O3; [apply O; exact N|]. intros Q. apply N. exists r. auto. }
      { intros q y Hq. apply held_set_In in Hq as [[-> ->]|[Nq Hq]].
        - split; [exact Hr|]. split; [apply Gs; left; reflexivity|exact L3].
        - destruct (Hh q y Hq) as (Q1 & Q2 & Q3). split; [exact Q1|]. split; [exact Q2|]. rewrite <- Q3. apply (ro_bytes _ _ _ HR); [exact Q1|].
          intros l Hl. apply O3. apply apart_register with q; auto. }
      { intros y Hy. apply Gs. right. exact Hy. }
      exists ({| a_name := "PUSH"; a_value := Some (upper (hex_drop2 r)) |} :: {| a_name := "MSTORE"; a_value := None |} :: c2), wf, wf2.
      split; [unfold emit_vset; cbn [app map_result]; rewrite push_asm by exact Pr; cbn [bind]; rewrite store_asm; cbn [bind]; rewrite M; reflexivity|].
      split; [exact Nf|]. split; [cbn [mrun map app]; rewrite push_step by exact Pr; rewrite Ms3; exact Rn|].
      split; [exact Of|]. split; [exact Hf|]. intros q Hq Nq. rewrite Un; [|exact Hq|intros Q; apply Nq; right; exact Q].
      apply (ro_bytes _ _ _ HR); [exact Hq|]. intros l Hl. apply O3. apply apart_register with q; auto. intros ->. apply Nq. left. reflexivity.
    + (* the stack is rearranged *)
      destruct (stack_step sem p ef id st st1 w2 g below SO Bd H2) as (g' & M2 & RR); [congruence|].
      assert (g' = g) by (destruct RR as [[_ ->]|(y & Q & _)]; [reflexivity|congruence]). subst g'.
      destruct (IH (pre ++ [id]) st1 stf w w2 rs h hf E' H1' H3 Nm' T) as (c2 & wf & wf2 & M & Nf & Rn & Of & Hf & Un); auto.
      { apply (good_step id st st1); auto. congruence. }
      exists (asm_from_op_info id None :: c2), wf, wf2. split; [cbn [map_result]; rewrite A; cbn [bind]; rewrite M; reflexivity|].
      split; [exact Nf|]. split; [cbn [mrun]; rewrite M2; exact Rn|]. auto.
  - (* an operation of the block *)
    assert (Gs' : forall y, In y st1 -> good y).
    { apply (good_step id st st1); auto. intros y Hy. unfold is_stack_op in SO. rewrite !orb_false_iff in SO. destruct SO as [[_ S4] _]. rewrite Hy in S4. discriminate. }
    unfold is_stack_op in SO. rewrite !orb_false_iff in SO. destruct SO as [[[[S1 S2] S3] S4] S5].
    unfold execute_instr_id in H2. rewrite S1, S2, S3 in H2.
    destruct (vget_arg id) eqn:VG; [discriminate|]. destruct (vset_arg id) eqn:VS; [discriminate|].
    apply bind_ok in H2 as (i & Hi & H2). apply of_option_ok in Hi. apply find_instr_In in Hi as [Hi Eid].
    destruct (Hwfi i Hi) as (_ & N2 & N3 & N4). pose proof (Hrsp i Hi) as Ri.
    assert (A : id_to_asm_bytecode p id = asm_of_instr i) by (unfold id_to_asm_bytecode; rewrite <- Eid, find_last_unique; auto).
    assert (Ha' : asm_of_instr i = Ok a) by congruence.
    pose proof H2 as H2'. apply exec_user_spec in H2' as (act & rest & -> & -> & Hact).
    assert (OD : forall v, op_denote sem i (map ef act) v = op_denote sem i (map ef (i_inpt i)) v).
    { intros v. destruct Hact as [->|(C & x & y & Ii & ->)]; auto. rewrite Ii. simpl. apply (rsp_comm _ _ _ Ri); auto. }
    assert (LA : length (map ef act) = length (i_inpt i)).
    { rewrite map_length. destruct Hact as [->|(C & x & y & Ii & ->)]; auto. rewrite Ii; auto. }
    assert (St : forall v q, mstep sem a (mk (map ef (act ++ rest) ++ below) v q)
      = Some (mk (fst (op_denote sem i (map ef (i_inpt i)) v) ++ map ef rest ++ below) (snd (op_denote sem i (map ef (i_inpt i)) v)) q)).
    { intros v q. rewrite map_app, <- app_assoc, (op_step sem i a _ _ _ _ Ha' N4 N2 N3 (rsp_nin _ _ _ Ri) LA), OD. reflexivity. }
    rewrite St in Ms. injection Ms as Eo Ew _. rewrite map_app, <- app_assoc in Eo. apply app_inv_tail in Eo.
    assert (Rd : forall l, reads fp i (map ef (i_inpt i)) l -> w2 l = w l).
    { intros l Hl. symmetry. apply O. intros Q. exact (proj1 (Havoid i l Hi Q) Hl). }
    assert (Eo2 : fst (op_denote sem i (map ef (i_inpt i)) w2) = map ef (i_outpt i)) by (rewrite <- Eo; apply (rsp_outs _ _ _ Ri); exact Rd).
    assert (Kp : forall l, in_registers R l -> snd (op_denote sem i (map ef (i_inpt i)) w2) l = w2 l).
    { intros l Q. apply (rsp_frame _ _ _ Ri). exact (proj2 (Havoid i l Hi Q)). }
    assert (Ld : forall r, In r R -> load r (snd (op_denote sem i (map ef (i_inpt i)) w2)) = load r w2).
    { intros r Hr. apply (ro_bytes _ _ _ HR); [exact Hr|]. intros l Hl. apply Kp. exists r. auto. }
    cbn [track] in T. cbn [lowered]. rewrite VG, VS in *.
    destruct (IH (pre ++ [id]) (i_outpt i ++ rest) stf w' (snd (op_denote sem i (map ef (i_inpt i)) w2)) rs h hf E' H1' H3 Nm' T) as (c2 & wf & wf2 & M & Nf & Rn & Of & Hf & Un); auto.
    { intros l Nl. subst w'. destruct (writes fp i (map ef (i_inpt i)) l) eqn:Wl.
      - symmetry. apply (rsp_writes _ _ _ Ri); [exact Rd|exact Wl].
      - rewrite !(rsp_frame _ _ _ Ri) by exact Wl. apply O. exact Nl. }
    { intros r x Hrx. destruct (Hh r x Hrx) as (Q1 & Q2 & Q3). rewrite Ld by exact Q1. auto. }
    exists (a :: c2), wf, wf2. split; [cbn [map_result]; rewrite A, Ha'; cbn [bind]; rewrite M; reflexivity|].
    split; [exact Nf|]. split; [cbn [mrun]; rewrite St, Eo2, app_assoc, <- map_app; exact Rn|]. split; [exact Of|]. split; [exact Hf|].
    intros r Hr Nr. rewrite Un by assumption. apply Ld. exact Hr.
Qed.
End Lowered.
