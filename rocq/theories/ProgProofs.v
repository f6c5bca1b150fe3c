(** Every block of the program is followed by the emitted code. *)
From Verif Require Import Base Lexical SymExecModel AsmModel MachineSpec FootprintSpec LexicalProofs CheckerProofs CheckerSim DepsModel GreedyTailModel
  SpecModel SpecSem SpecProofs SpecBuild SpecSound SpecDce SpecDeps BlockSpec BlockProofs BlockProps UtilModel UtilProps EmitModel EmitSpec EmitProps
  RegModel RegsSpec ProgSem ProgSpec ProgBlock ProgLayout.
Open Scope string_scope. Open Scope list_scope.

Lemma lookup_map {A B} (f : A -> B) x (d : list (string * A)) : lookup x (map (fun p => (fst p, f (snd p))) d) = option_map f (lookup x d).
Proof. induction d as [|[y a] d IH]; [reflexivity|]. cbn. destruct (String.eqb y x); [reflexivity|exact IH]. Qed.

Lemma Forall2_app_l {A B} (R : A -> B -> Prop) l1 l2 l : Forall2 R (l1 ++ l2) l ->
  exists k1 k2, l = k1 ++ k2 /\ Forall2 R l1 k1 /\ Forall2 R l2 k2.
Proof. intros H. apply Forall2_app_inv_l in H as (k1 & k2 & H1 & H2 & ->). eauto. Qed.

Lemma track_In r x : forall ids rs h hf, track ids rs h = Some hf -> In (r, x) hf -> In r rs \/ In r (map fst h).
Proof.
  induction ids as [|id ids IH]; intros rs h hf T H; cbn [track] in T.
  - injection T as <-. right. apply in_map_iff. exists (r, x). auto.
  - destruct (vget_arg id), (vset_arg id), rs as [|r' rs]; try discriminate.
    + destruct (existsb _ h); [|discriminate]. destruct (IH _ _ _ T H); [left; right|right]; assumption.
    + destruct (existsb _ h); [|discriminate]. destruct (IH _ _ _ T H); [left; right|right]; assumption.
    + destruct (IH _ _ _ T H) as [Q|Q]; [left; right; exact Q|]. destruct Q as [<-|Q]; [left; left; reflexivity|]. right.
      apply in_map_iff in Q as ([q y] & <- & Q). apply filter_In in Q as [Q _]. apply in_map_iff. exists (q, y). auto.
    + exact (IH _ _ _ T H).
    + exact (IH _ _ _ T H).
Qed.

Section Sim.
Context {V LV : Type}.
Variable sem : semantics V place LV.
Variable truth : V -> bool.
Variable blank : string -> V.
Variable tag_of : V -> option Z.
Variable val : V -> Z.
Variable tr : translation.
Variable tags : list (string * Z).
Variable dummy : list string.
Variable L : list (string * list asm).
Notation code := (codes L).
Notation blocks k := (fst (emitted_component k)).
Notation reach k b := (reachable (blocks k) (t_start k) b).
Notation fns := (map fst (t_functions tr)).
Notation esteps := (esteps sem truth tag_of).
Notation estep := (estep sem truth tag_of).
Notation enter := (@enter V place LV sem).
Notation cstep := (@cstep V place LV sem truth blank).
Hypothesis HT : translated tr tags dummy.
Hypothesis EV : forall c b tb, tblock_of tr c b = Some tb -> evm_like sem val (p_instrs (t_block tb)).
Hypothesis HA : forall c b tb i im, tblock_of tr c b = Some tb -> p_last (t_block tb) = Some i ->
  In (c_op i) ["return"; "revert"; "stop"; "selfdestruct"] -> prim_arity sem (upper (c_op i)) im = length (c_in i).
Hypothesis HA0 : forall im, prim_arity sem "STOP" im = 0.
Variable load : Z -> (place -> LV) -> V.
Hypothesis HR : register_ops sem load (registers_of tr).
Hypothesis HTag : forall b z, lookup b tags = Some z -> tag_of (tag_word sem z) = Some z.
Hypothesis NDL : NoDup (map fst L).
Hypothesis LAY : forall c k b, tcomponent_of tr c = Some k -> reach k b ->
  exists tb bc, lookup b (t_blocks k) = Some tb /\ In (b, bc) L /\ block_code fns tags (blocks k) b bc.
Hypothesis ADJ : forall c k b b', tcomponent_of tr c = Some k -> reach k b -> falls (blocks k) b b' -> adjacent b b' (map fst L).
Hypothesis TAG : forall c k b z, tcomponent_of tr c = Some k -> reach k b -> lookup b tags = Some z -> find_tag z code = Some (pos b L).
Hypothesis NE : forall c k b b', tcomponent_of tr c = Some k -> reach k b -> falls (blocks k) b b' -> ~ block_code fns tags (blocks k) b' [].

Lemma tblock_of_intro c k b tb : tcomponent_of tr c = Some k -> lookup b (t_blocks k) = Some tb -> tblock_of tr c b = Some tb.
Proof. unfold tblock_of. intros -> H. exact H. Qed.
Lemma emitted_lookup k b : lookup b (blocks k) = option_map emitted_block (lookup b (t_blocks k)).
Proof. unfold emitted_component. cbn [fst]. apply lookup_map. Qed.
Lemma source_component_of c : component_of (source tr) c = option_map source_component (tcomponent_of tr c).
Proof. destruct c as [f|]; [|reflexivity]. unfold component_of, tcomponent_of, source. cbn [g_functions]. apply lookup_map. Qed.
Lemma source_block_of c b : block_of (source tr) c b = option_map t_block (tblock_of tr c b).
Proof.
  unfold block_of, tblock_of. rewrite source_component_of. destruct (tcomponent_of tr c) as [k|]; [|reflexivity]. cbn [option_map source_component k_blocks]. apply lookup_map.
Qed.

Lemma regs_incl c k : tcomponent_of tr c = Some k -> incl (t_regs k) (registers_of tr).
Proof.
  intros H r Hr. unfold registers_of. apply in_flat_map. exists k. split; [|exact Hr].
  destruct c as [f|]; cbn in H; [|injection H as <-; left; reflexivity]. right. apply in_map_iff. exists (f, k). split; [reflexivity|]. apply lookup_In. exact H.
Qed.
Lemma after_regs c k b tb r v : tcomponent_of tr c = Some k -> lookup b (t_blocks k) = Some tb -> In (r, v) (held_after tb) -> In r (t_regs k).
Proof.
  intros Hk Hb H. destruct (tr_regs _ _ _ HT c k b tb Hk Hb) as (I1 & I2 & _). unfold held_after in H.
  destruct (track (t_ids tb) (t_slots tb) (t_held tb)) as [hf|] eqn:T; [|destruct H]. destruct (track_In _ _ _ _ _ _ T H) as [Q|Q]; auto.
Qed.

(** Values along an edge. *)
Lemma phi_args_nth (phis : list (string * list string)) k : forall l, fold_right (fun p r => match nth_error (snd p) k, r with Some a, Some l => Some (a :: l) | _, _ => None end) (Some []) phis = Some l ->
  forall n u (args : list string), nth_error phis n = Some (u, args) -> nth_error l n = nth_error args k.
Proof.
  induction phis as [|[u' a'] phis IH]; intros l H n u args Hn; [destruct n; discriminate|]. cbn [fold_right snd] in H.
  destruct (nth_error a' k) as [a|] eqn:E; [|discriminate]. destruct (fold_right _ _ phis) as [l'|] eqn:F; [|discriminate]. injection H as <-.
  destruct n as [|n]; cbn in Hn |- *; [injection Hn as <- <-; congruence|]. eapply IH; eauto.
Qed.
Lemma lookup_nth {A} u (d : list (string * A)) a : lookup u d = Some a -> exists n, nth_error d n = Some (u, a).
Proof.
  induction d as [|[y b] d IH]; [discriminate|]. cbn. destruct (String.eqb_spec y u) as [->|_]; [intros [= ->]; exists 0; reflexivity|].
  intros H. destruct (IH H) as (n & Hn). exists (S n). exact Hn.
Qed.

Lemma aval_bind_other e xs vs v : ~ In v xs -> aval sem (bind_vars e xs vs) v = aval sem e v.
Proof. intros N. unfold aval. rewrite bind_vars_notin by exact N. reflexivity. Qed.

Lemma passes_holds tb from e1 e2 v u x : compiled tb -> user_name u -> enter (t_block tb) from e2 = Some e1 ->
  passes dummy (p_phis (t_block tb)) (match from with Some f => index_of f (p_entries (t_block tb)) | None => None end) v u ->
  holds sem dummy e2 v x -> holds sem dummy e1 u x.
Proof.
  intros C Uu En [D|(N1 & N2 & P)] H B D'; [contradiction|]. rewrite (H N1 N2). rewrite (user_aval sem e1 u Uu).
  unfold ProgSem.enter in En. destruct (phi_args (t_block tb) from) as [args|] eqn:PA; [|discriminate]. injection En as <-.
  destruct (lookup u (p_phis (t_block tb))) as [as'|] eqn:Lu.
  - destruct P as (n & Ek & En). destruct (lookup_nth _ _ _ Lu) as (j & Hj). unfold phi_args in PA.
    destruct (p_phis (t_block tb)) as [|p ps] eqn:Eph; [discriminate Lu|]. rewrite <- Eph in *. destruct from as [f|]; [|discriminate]. rewrite Ek in PA.
    pose proof (phi_args_nth _ _ _ PA j u as' Hj) as Q. rewrite En in Q.
    symmetry. apply bind_vars_In with j; [exact (co_phis _ C)| |].
    + rewrite nth_error_map, Hj. reflexivity.
    + rewrite nth_error_map, Q. reflexivity.
  - subst v. rewrite bind_vars_notin; [symmetry; rewrite <- (user_aval sem e2 u Uu); reflexivity|]. apply lookup_None. exact Lu.
Qed.

Lemma agree_holds tb forget from out e2 outs : compiled tb -> layouts_agree dummy forget from out tb -> Forall2 (holds sem dummy e2) out outs ->
  exists vals more, outs = vals ++ more /\ (forget = false -> more = []) /\
    forall e1, enter (t_block tb) from e2 = Some e1 -> Forall2 (holds sem dummy e1) (t_initial tb) vals.
Proof.
  intros C (keep & rest & -> & Fr & P) H. apply Forall2_app_l in H as (vals & more & -> & H1 & H2). exists vals, more. split; [reflexivity|]. split.
  - intros E. rewrite (Fr E) in H2. inversion H2. reflexivity.
  - intros e1 En. assert (UN : forall x, In x (t_initial tb) -> user_name x) by (intros x Hx; apply (ssa_initial _ _ (co_ssa _ C) x Hx)).
    clear - P H1 En UN C. revert vals H1. induction P as [|v u keep us Pv P IH]; intros vals H1; inversion H1; subst; constructor.
    + eapply passes_holds; eauto. apply UN. left. reflexivity.
    + apply IH; [|assumption]. intros y0 Hy. apply UN. right. exact Hy.
Qed.

(** Variables a block does not assign. *)
Lemma exec_notin p : forall ew x, ~ In x (flat_map c_out p) -> fst (exec_cfg sem p ew) x = fst ew x.
Proof.
  induction p as [|i p IH]; intros [e w] x N; [reflexivity|]. cbn [flat_map] in N. rewrite in_app_iff in N. unfold exec_cfg. cbn [fold_left].
  change (fst (exec_cfg sem p (exec_cins sem i (e, w))) x = e x). rewrite IH by tauto. unfold exec_cins. destruct (cfg_denote _ _ _ _) as [o w']. cbn [fst].
  apply bind_vars_notin. tauto.
Qed.
Lemma enter_notin blk from e e1 x : enter blk from e = Some e1 -> ~ In x (map fst (p_phis blk)) -> e1 x = e x.
Proof. unfold ProgSem.enter. destruct (phi_args blk from); [|discriminate]. intros [= <-] N. apply bind_vars_notin. exact N. Qed.

Lemma pushed_tag tb t z ew : compiled tb -> pushes_tag tb t z -> user_name t /\ fst (exec_cfg sem (p_instrs (t_block tb)) ew) t = tag_word sem z.
Proof.
  intros C (i & Hi & Op & Out & Pz). split; [apply (ssa_out_names _ _ (co_ssa _ C) i t Hi); rewrite Out; left; reflexivity|].
  pose proof (ssa_outs _ _ (co_ssa _ C)) as ND. apply in_split in Hi as (pre & post & E). rewrite E in *. rewrite flat_map_app in ND. cbn [flat_map] in ND. rewrite Out in ND.
  unfold exec_cfg. rewrite fold_left_app. cbn [fold_left]. destruct (fold_left _ pre ew) as [e w]. change (fst (exec_cfg sem post (exec_cins sem i (e, w))) t = tag_word sem z).
  rewrite exec_notin.
  - unfold exec_cins, cfg_denote. rewrite Op, Out, Pz. cbn. rewrite String.eqb_refl. reflexivity.
  - apply NoDup_remove_2 in ND. rewrite in_app_iff in ND. tauto.
Qed.

(** The stack below the variables of a component, and what is in the registers
    that the component does not use. *)
Inductive backs : tcomponent -> (string -> V) -> (place -> LV) -> list V -> list (frame V) -> Prop :=
| Backs_none k e w below frames : t_return k = None -> backs k e w below frames
| Backs_some k e w frames r z fr kc tb i next rest restvals below :
    t_return k = Some r -> user_name r -> e r = tag_word sem z -> lookup next tags = Some z ->
    tcomponent_of tr (fr_comp fr) = Some kc -> lookup (fr_block fr) (t_blocks kc) = Some tb -> reach kc (fr_block fr) ->
    In (p_type (t_block tb)) ["sub_block"; "falls_to"] -> p_last (t_block tb) = Some i -> p_falls_to (t_block tb) = Some next ->
    NoDup (c_out i) -> (forall x, In x (c_out i) -> user_name x) -> (forall v, In v rest -> ~ In v (c_out i)) -> t_final tb = c_out i ++ rest ->
    Forall2 (holds sem dummy (fr_env fr)) rest restvals ->
    lookup (c_op i) (t_functions tr) = Some k -> incl (t_regs k) (t_regs kc) ->
    (forall q v, In (q, v) (held_after tb) -> user_name v -> ~ In v dummy -> ~ In q (t_regs k) -> load q w = fr_env fr v) ->
    backs kc (fr_env fr) w below frames -> backs k e w (restvals ++ below) (fr :: frames).
Lemma backs_env k e e' w below frames : backs k e w below frames -> (forall r, t_return k = Some r -> e' r = e r) -> backs k e' w below frames.
Proof. intros H E. destruct H; [apply Backs_none; assumption|]. eapply Backs_some; eauto. rewrite (E r) by assumption. assumption. Qed.
Lemma backs_world k e w w' below frames : backs k e w below frames ->
  (forall q, In q (registers_of tr) -> ~ In q (t_regs k) -> load q w' = load q w) -> backs k e w' below frames.
Proof.
  induction 1 as [|k e w frames r z fr kc tb i next rest restvals below H1 H2 H3 H4 H5 H6 H7 H8 H9 H10 H11 H12 H13 H14 H15 H16 H17 H18 H19 IH]; intros E;
    [apply Backs_none; assumption|].
  eapply Backs_some; eauto.
  - intros q v Hq Uv Nv Nq. rewrite E; auto. apply (regs_incl _ _ H5). eapply after_regs; eauto.
  - apply IH. intros q Hq Nq. apply E; auto.
Qed.

(** The machine is at the beginning of the block. *)
Definition at_block (full : bool) (s : config V place LV) (r : running V place LV) : Prop :=
  match s, r with
  | Run c from b e w frames, At pc m =>
      exists k tb vals below, tcomponent_of tr c = Some k /\ lookup b (t_blocks k) = Some tb /\ reach k b /\ pc = pos b L /\
        m_stack m = vals ++ below /\ outside (registers_of tr) w (m_world m) /\
        (forall e1, enter (t_block tb) from e = Some e1 ->
           Forall2 (holds sem dummy e1) (t_initial tb) vals /\ forall q x, In (q, x) (t_held tb) -> load q (m_world m) = e1 x) /\
        backs k e (m_world m) below frames /\ (full = true -> ~ block_code fns tags (blocks k) b [])
  | Halt op args w, Stopped op' args' w' => op' = op /\ args' = args /\ outside (registers_of tr) w w'
  | _, _ => False
  end.

Lemma holds_vals e (vs : list string) xs : Forall2 (holds sem dummy e) vs xs -> (forall v, In v vs -> v <> "bottom" /\ ~ In v dummy) -> xs = map (aval sem e) vs.
Proof.
  induction 1 as [|v x vs xs H F IH]; intros N; [reflexivity|]. cbn. destruct (N v (or_introl eq_refl)) as [N1 N2]. rewrite (H N1 N2), IH; [reflexivity|].
  intros u Hu. apply N. right. exact Hu.
Qed.

Lemma holds_bound e xs vs : NoDup xs -> length vs = length xs -> (forall x, In x xs -> user_name x) -> Forall2 (holds sem dummy (bind_vars e xs vs)) xs vs.
Proof.
  intros ND Le U. assert (Q : map (bind_vars e xs vs) xs = vs) by (apply bind_vars_map; auto). rewrite <- Q at 2. clear Q ND Le. generalize (bind_vars e xs vs).
  intros e'. induction xs as [|x xs IH]; [constructor|]. cbn. constructor; [|apply IH; intros y Hy; apply U; right; exact Hy].
  intros _ _. symmetry. apply user_aval, U. left. reflexivity.
Qed.

Lemma tag_not_empty k b : lookup b tags <> None -> ~ block_code fns tags (blocks k) b [].
Proof.
  intros N (blk & ids & last & _ & _ & _ & E). destruct (lookup b tags) as [t|]; [discriminate|destruct (N eq_refl)].
Qed.

(** Entering a block from another one. *)
Lemma enter_block c k b tb e2 w2 w' pc frames b' outs extra below regs :
  tcomponent_of tr c = Some k -> lookup b (t_blocks k) = Some tb -> reach k b ->
  (p_jump_to (t_block tb) = Some b' \/ p_falls_to (t_block tb) = Some b') -> goes (blocks k) b b' ->
  Forall2 (holds sem dummy e2) (t_final tb) outs -> outside (registers_of tr) w2 w' ->
  (forall q v, stays tr tb q v -> ~ In v dummy -> load q w' = e2 v) -> (t_return k <> None -> extra = []) -> backs k e2 w' below frames ->
  pc = pos b' L -> ~ block_code fns tags (blocks k) b' [] ->
  at_block true (Run c (Some b) b' e2 w2 frames) (At pc {| m_stack := outs ++ extra ++ below; m_world := w'; m_regs := regs |}).
Proof.
  intros Hk Hb R Ed G H W Hs J B -> N. assert (R' : reach k b') by (eapply Reach_step; eauto).
  destruct (LAY c k b' Hk R') as (tb' & bc & Hb' & _). pose proof (tr_edges _ _ _ HT c k b tb b' tb' Hk Hb Ed Hb') as A.
  assert (C' : compiled tb') by (apply (tr_compiled _ _ _ HT c b'); eapply tblock_of_intro; eauto).
  destruct (agree_holds tb' _ _ _ e2 outs C' A H) as (vals & more & -> & M & Hv).
  exists k, tb', vals, (more ++ extra ++ below). cbn [m_stack m_world]. rewrite <- !app_assoc.
  split; [exact Hk|]. split; [exact Hb'|]. split; [exact R'|]. split; [reflexivity|]. split; [reflexivity|]. split; [exact W|].
  split; [intros e1 En; split; [exact (Hv e1 En)|]|split; [|intros _; exact N]].
  { intros q u Hq. destruct (tr_held _ _ _ HT c k b tb b' tb' Hk Hb Ed Hb' q u Hq) as (v & Sv & Pv). destruct (co_held _ C' q u Hq) as [Uu _].
    assert (Nu : ~ In u dummy) by (intros D; exact (proj2 (proj2 (proj2 (tr_unread _ _ _ HT c b' tb' (tblock_of_intro c k b' tb' Hk Hb') u D))) q Hq)).
    rewrite <- (user_aval sem e1 u Uu). refine (passes_holds tb' (Some b) e1 e2 v u _ C' Uu En Pv _ (proj1 (proj2 Uu)) Nu).
    intros _ Nv. rewrite (Hs q v Sv Nv). symmetry. apply user_aval. exact (proj1 (proj2 Sv)). }
  destruct (t_return k) as [r|] eqn:Er; [|apply Backs_none; exact Er]. rewrite (M eq_refl), J by discriminate. exact B.
Qed.

Lemma run_header b bc rest m : bc = match lookup b tags with
            | Some t => [{| a_name := "tag"; a_value := Some (upper (str_Z t)) |}; {| a_name := "JUMPDEST"; a_value := None |}]
            | None => [] end ++ rest -> In (b, bc) L ->
  exists n, esteps n code (At (pos b L) m) = Some (At (pos b L + n) m) /\ code_at code (pos b L + n) rest /\ n + length rest = length bc.
Proof.
  intros E Hb. pose proof (pos_at L b bc NDL Hb) as P. rewrite E in P |- *. apply code_at_app in P as [P1 P2]. destruct (lookup b tags) as [t|].
  - exists 2. split; [|split; [exact P2|reflexivity]].
    assert (Q : forall pc a, nth_error code pc = Some a -> mem (a_name a) ["tag"; "JUMPDEST"] = true -> esteps 1 code (At pc m) = Some (At (S pc) m)).
    { intros pc a Ha Hm. cbn [ProgSem.esteps ProgSem.estep]. rewrite Ha, Hm. reflexivity. }
    change 2 with (1 + 1) at 1. rewrite (esteps_app _ _ _ _ _ _ _ _ (Q _ _ (code_at_item _ _ _ _ P1) eq_refl)).
    change [{| a_name := "tag"; a_value := Some (upper (str_Z t)) |}; {| a_name := "JUMPDEST"; a_value := None |}]
      with ([{| a_name := "tag"; a_value := Some (upper (str_Z t)) |}] ++ [{| a_name := "JUMPDEST"; a_value := None |}]) in P1.
    apply code_at_app in P1 as [_ P1]. cbn [length] in P1. rewrite Nat.add_1_r in P1. rewrite (Q _ _ (code_at_item _ _ _ _ P1) eq_refl). do 2 f_equal. lia.
  - exists 0. rewrite Nat.add_0_r in *. split; [reflexivity|]. split; [exact P2|reflexivity].
Qed.

(** From the beginning of a block to its last instruction. *)
Lemma run_body c k b tb from e e1 w frames pc m : at_block false (Run c from b e w frames) (At pc m) ->
  tcomponent_of tr c = Some k -> lookup b (t_blocks k) = Some tb -> enter (t_block tb) from e = Some e1 ->
  block_spares sem val (registers_of tr) (p_instrs (t_block tb)) e1 w ->
  let r := exec_cfg sem (p_instrs (t_block tb)) (e1, w) in
  exists n m' out extra below last bc, In (b, bc) L /\ block_code fns tags (blocks k) b bc /\
    match p_last (t_block tb) with Some i => asm_for_split_instruction (cinstr_of i) fns = Ok last | None => last = [] end /\
    let tail := last ++ (if String.eqb (p_type (t_block tb)) "mainExit" then [{| a_name := "STOP"; a_value := None |}] else []) in
    n + length tail = length bc /\
    esteps n code (At pc m) = Some (At (pc + n) m') /\ code_at code (pc + n) tail /\ pc = pos b L /\
    m_stack m' = out ++ extra ++ below /\ (t_return k <> None -> extra = []) /\ Forall2 (holds sem dummy (fst r)) (t_target tb) out /\
    outside (registers_of tr) (snd r) (m_world m') /\
    (forall q x, In (q, x) (held_after tb) -> user_name x -> ~ In x dummy -> load q (m_world m') = fst r x) /\
    backs k (fst r) (m_world m') below frames.
Proof.
  intros A Hk Hb En Sp r. destruct A as (k' & tb' & vals & below & Hk' & Hb' & R & -> & St & W & Hv & B & _).
  rewrite Hk in Hk'. injection Hk' as <-. rewrite Hb in Hb'. injection Hb' as <-.
  pose proof (tblock_of_intro c k b tb Hk Hb) as Tb. pose proof (tr_compiled _ _ _ HT c b tb Tb) as C.
  destruct (LAY c k b Hk R) as (tb' & bc & Hb'' & Hin & BC). pose proof BC as BC0. destruct BC as (blk & ids & last & Lb & Ids & Last & Ebc).
  rewrite emitted_lookup, Hb in Lb. cbn [option_map] in Lb. injection Lb as <-. cbn [emitted_block eb_spec eb_ids eb_split eb_type] in Ids, Last, Ebc.
  destruct (run_header b bc _ m Ebc Hin) as (n1 & E1 & P1 & Ln).
  destruct m as [st mw regs]. cbn [m_stack m_world] in St, W. subst st.
  destruct (tr_regs _ _ _ HT c k b tb Hk Hb) as (I1 & I2 & _). pose proof (regs_incl c k Hk) as I0. destruct (Hv e1 En) as [Hv1 Hv2].
  destruct (run_block sem val dummy tb ids load (registers_of tr) e1 w mw vals below regs C (tr_unread _ _ _ HT c b tb Tb) (EV c b tb Tb) Ids HR
    (incl_tran I1 I0) (incl_tran I2 I0) Sp Hv1 W Hv2) as (m' & out & extra & M1 & M2 & M3 & M4 & M5 & M6 & M7).
  apply code_at_app in P1 as [P1 P2].
  assert (E2 : esteps (length ids) code (At (pos b L + n1) {| m_stack := vals ++ below; m_world := mw; m_regs := regs |}) = Some (At (pos b L + n1 + length ids) m')).
  { destruct P1 as (pre & post & Ec & <-). rewrite Ec at 1. apply mrun_esteps; [|exact M1]. exact (code_no_control tb ids C Ids). }
  exists (n1 + length ids), m', out, extra, below, last, bc. split; [exact Hin|]. split; [exact BC0|]. split.
  { destruct (p_last (t_block tb)); exact Last. }
  split; [rewrite app_length in Ln; lia|].
  split; [rewrite (esteps_app _ _ _ _ _ _ _ _ E1), E2; do 2 f_equal; lia|]. split; [rewrite Nat.add_assoc; exact P2|]. split; [reflexivity|]. split; [exact M2|].
  split; [intros Nr; apply M3; exact (tr_junk _ _ _ HT c k b tb Hk Hb Nr)|]. split; [exact M4|]. split; [exact M5|]. split; [exact M6|].
  apply backs_env with e; [apply backs_world with mw; [exact B|intros q Hq Nq; apply M7; auto]|]. intros ra Er. destruct (tr_return _ _ _ HT c k ra b tb Hk Er Hb) as (T1 & T2 & _).
  unfold r. rewrite exec_notin.
  - cbn [fst]. apply enter_notin with (t_block tb) from; assumption.
  - rewrite in_flat_map. intros (i & Hi & Q). exact (T2 i Hi Q).
Qed.

Lemma estep_jump pc m a z d st to : nth_error code pc = Some a -> a_name a = "JUMP" -> m_stack m = d :: st -> tag_of d = Some z -> find_tag z code = Some to ->
  esteps 1 code (At pc m) = Some (At to (with_stack st m)).
Proof. intros H N S T F. cbn [ProgSem.esteps ProgSem.estep]. rewrite H, N, S. unfold jump. rewrite T, F. reflexivity. Qed.

Lemma last_in_dummy c b tb i v : tblock_of tr c b = Some tb -> p_last (t_block tb) = Some i -> In v (c_in i) -> ~ In v dummy.
Proof. intros T E H D. destruct (tr_unread _ _ _ HT c b tb T v D) as (_ & Q & _). exact (Q i E H). Qed.

Lemma split_target tb i e out : compiled tb -> p_last (t_block tb) = Some i -> Forall2 (holds sem dummy e) (t_target tb) out ->
  exists rest ins restvals, t_final tb = c_out i ++ rest /\ out = ins ++ restvals /\ Forall2 (holds sem dummy e) (c_in i) ins /\
    Forall2 (holds sem dummy e) rest restvals.
Proof.
  intros C E H. pose proof (co_target _ C) as T. rewrite E in T. destruct T as (rest & Ef & Et). rewrite Et in H.
  apply Forall2_app_l in H as (ins & rv & -> & H1 & H2). exists rest, ins, rv. auto.
Qed.

Lemma function_names f : In f fns -> ~ In f ["functionReturn"; "JUMP"; "JUMPI"; "return"; "revert"; "stop"; "selfdestruct"].
Proof. exact (proj2 (tr_functions _ _ _ HT) f). Qed.
Lemma not_function op : In op ["functionReturn"; "JUMP"; "JUMPI"; "return"; "revert"; "stop"; "selfdestruct"] ->
  lookup op (g_functions (source tr)) = None /\ mem op fns = false.
Proof.
  intros H. assert (N : ~ In op fns) by (intros Q; exact (function_names op Q H)). split.
  - unfold source. cbn [g_functions]. rewrite lookup_map. destruct (lookup op (t_functions tr)) as [k|] eqn:E; [|reflexivity].
    destruct N. apply lookup_In_key. congruence.
  - apply mem_false. exact N.
Qed.

Lemma step_simulated c from b e w frames s' r : at_block false (Run c from b e w frames) r -> cstep (source tr) (Run c from b e w frames) = Some s' ->
  spares sem val (registers_of tr) (source tr) (Run c from b e w frames) ->
  exists n r', esteps n code r = Some r' /\ at_block true s' r' /\ (at_block true (Run c from b e w frames) r -> 1 <= n).
Proof.
  intros A St Sp. destruct r as [pc m|]; [|destruct A]. pose proof A as A0. destruct A0 as (k & tb & _ & _ & Hk & Hb & R & _).
  pose proof (tblock_of_intro c k b tb Hk Hb) as Tb. pose proof (tr_compiled _ _ _ HT c b tb Tb) as C.
  cbn [spares] in Sp. specialize (Sp (t_block tb)). rewrite source_block_of, Tb in Sp. cbn [ProgSem.cstep] in St. rewrite source_block_of, Tb in St. cbn [option_map] in St.
  destruct (enter (t_block tb) from e) as [e1|] eqn:En; [|discriminate].
  destruct (run_body c k b tb from e e1 w frames pc m A Hk Hb En (Sp e1 eq_refl eq_refl)) as (n & m' & out & extra & below & last & bc & Hin & BC & Last & Ln & E & P & Epc & Sm & J & Ho & W & Hh & B).
  destruct (exec_cfg sem (p_instrs (t_block tb)) (e1, w)) as [e2 w2] eqn:Ex. cbn [fst snd] in *. cbv zeta in Ln, P.
  assert (Tg : forall t to, tag_for tags tb t to -> user_name t /\ exists z, e2 t = tag_word sem z /\ lookup to tags = Some z /\ tag_of (e2 t) = Some z).
  { intros t to (z & Pz & Lz). destruct (pushed_tag tb t z (e1, w) C Pz) as [U Q]. rewrite Ex in Q. cbn [fst] in Q. split; [exact U|]. exists z.
    rewrite Q. split; [reflexivity|]. split; [exact Lz|]. eapply HTag; eauto. }
  assert (Hs : forall q v, stays tr tb q v -> ~ In v dummy -> load q (m_world m') = e2 v) by (intros q v (S1 & S2 & _) Nv; exact (Hh q v S1 S2 Nv)).
  assert (Elk : lookup b (blocks k) = Some (emitted_block tb)) by (rewrite emitted_lookup, Hb; reflexivity).
  destruct m' as [st mw regs]. cbn [m_stack m_world] in Sm, W, Hh, Hs, B. subst st.
  destruct (tr_ending _ _ _ HT c k b tb Hk Hb) as
    [i t j Ty El Op Ins Outs Ej Ht | i t cond j f Ty El Op Ins Outs Nc Ej Ef Ht | f Ty El Ef
    | i fk ft args back next ra ps Ty El Lf Ins Hft Na Ef Hbk Er Eps Len NDo Uo Nr | i fk ft args Ty El Lf Ins Hft Na Er Len
    | i ra values Ty El Op Ins Outs Nv Er Ef | i Ty El Op Nv | Ty El]; rewrite El in St, Last.
  - (* JUMP *)
    destruct (not_function "JUMP") as [NF1 NF2]; [simpl; tauto|]. rewrite Op, NF1 in St. cbn in St. rewrite Ej in St. cbn in St. injection St as <-.
    destruct (split_target tb i e2 out C El Ho) as (rest & ins & rv & Ef & -> & Hi & Hr). rewrite Ins in Hi. inversion Hi as [|? x ? xs Hx Hn]; subst. inversion Hn; subst. clear Hi Hn.
    rewrite Outs in Ef. cbn [app] in Ef. destruct (Tg t j Ht) as (Ut & z & Ez & Lz & Tz).
    assert (G : goes (blocks k) b j). { right. exists (emitted_block tb). split; [exact Elk|]. cbn. rewrite Ty, Ej. simpl; auto. }
    assert (Rj : reach k j) by (eapply Reach_step; eauto).
    assert (Ex' : x = e2 t).
    { rewrite <- (user_aval sem e2 t Ut). apply Hx; [apply Ut|]. eapply last_in_dummy; eauto. rewrite Ins. left. reflexivity. }
    unfold asm_for_split_instruction, cinstr_of in Last. cbn [ci_op] in Last. rewrite Op, NF2 in Last. cbn in Last. injection Last as <-. cbn [app] in P.
    exists (n + 1), (At (pos j L) {| m_stack := rv ++ extra ++ below; m_world := mw; m_regs := regs |}). split; [|split; [|intros _; lia]].
    + rewrite (esteps_app _ _ _ _ _ _ _ _ E). erewrite estep_jump; [| exact (code_at_item _ _ _ _ P) | reflexivity | cbn; reflexivity | rewrite Ex'; exact Tz | exact (TAG c k j z Hk Rj Lz) ].
      reflexivity.
    + apply enter_block with (k := k) (tb := tb); auto; [rewrite Ef; exact Hr|]. apply tag_not_empty. congruence.
  - (* JUMPI *)
    destruct (not_function "JUMPI") as [NF1 NF2]; [simpl; tauto|]. rewrite Op, NF1, Ins in St. cbn in St.
    destruct (split_target tb i e2 out C El Ho) as (rest & ins & rv & Efin & -> & Hi & Hr). rewrite Ins in Hi.
    inversion Hi as [|? x ? xs Hx Hn]; subst. inversion Hn as [|? y ? ys Hy Hn']; subst. inversion Hn'; subst. clear Hi Hn Hn'.
    rewrite Outs in Efin. cbn [app] in Efin. destruct (Tg t j Ht) as (Ut & z & Ez & Lz & Tz).
    assert (G : goes (blocks k) b j). { right. exists (emitted_block tb). split; [exact Elk|]. cbn. rewrite Ty, Ej. simpl; auto. }
    assert (Fl : falls (blocks k) b f). { exists (emitted_block tb). split; [exact Elk|]. cbn. rewrite Ty, Ef. simpl; auto. }
    assert (Rj : reach k j) by (eapply Reach_step; eauto).
    assert (Ex' : x = e2 t).
    { rewrite <- (user_aval sem e2 t Ut). apply Hx; [apply Ut|]. eapply last_in_dummy; eauto. rewrite Ins. left. reflexivity. }
    assert (Ey : y = aval sem e2 cond). { apply Hy; [exact Nc|]. eapply last_in_dummy; eauto. rewrite Ins. simpl; auto. }
    unfold asm_for_split_instruction, cinstr_of in Last. cbn [ci_op] in Last. rewrite Op, NF2 in Last. cbn in Last. injection Last as <-. rewrite Ty in P, Ln. cbn [app] in P.
    pose proof (code_at_item _ _ _ _ P) as It. cbn in Ln.
    rewrite <- Ey in St. destruct (truth y) eqn:Tr.
    + rewrite Ej in St. cbn in St. injection St as <-.
      exists (n + 1), (At (pos j L) {| m_stack := rv ++ extra ++ below; m_world := mw; m_regs := regs |}). split; [|split; [|intros _; lia]].
      * rewrite (esteps_app _ _ _ _ _ _ _ _ E). cbn [ProgSem.esteps ProgSem.estep]. rewrite It. cbn. rewrite Tr. unfold jump. rewrite Ex', Tz, (TAG c k j z Hk Rj Lz). reflexivity.
      * apply enter_block with (k := k) (tb := tb); auto; [rewrite Efin; exact Hr|]. apply tag_not_empty. congruence.
    + rewrite Ef in St. cbn in St. injection St as <-.
      exists (n + 1), (At (pos b L + n + 1) {| m_stack := rv ++ extra ++ below; m_world := mw; m_regs := regs |}). split; [|split; [|intros _; lia]].
      * rewrite (esteps_app _ _ _ _ _ _ _ _ E). cbn [ProgSem.esteps ProgSem.estep]. rewrite It. cbn. rewrite Tr. rewrite Nat.add_1_r. reflexivity.
      * apply enter_block with (k := k) (tb := tb); auto; [left; exact Fl|rewrite Efin; exact Hr| |exact (NE c k b f Hk R Fl)].
        rewrite (pos_next L b f bc NDL (ADJ c k b f Hk R Fl) Hin). try subst pc; lia.
  - (* falls *)
    subst last. rewrite Ty in St, P, Ln. cbn in St. rewrite Ef in St. cbn in St. injection St as <-. cbn in Ln.
    assert (Fl : falls (blocks k) b f). { exists (emitted_block tb). split; [exact Elk|]. cbn. rewrite Ty, Ef. simpl; auto. }
    exists n, (At (pos b L + n) {| m_stack := out ++ extra ++ below; m_world := mw; m_regs := regs |}). split; [rewrite Epc in E; rewrite Epc; exact E|]. split.
    + apply enter_block with (k := k) (tb := tb); auto; [left; exact Fl| | |exact (NE c k b f Hk R Fl)].
      * pose proof (co_target _ C) as T. rewrite El in T. cbn in T. rewrite <- T. exact Ho.
      * rewrite (pos_next L b f bc NDL (ADJ c k b f Hk R Fl) Hin). try subst pc; lia.
    + intros (k' & tb' & _ & _ & Hk' & _ & _ & _ & _ & _ & _ & _ & Nb). rewrite Hk in Hk'. injection Hk' as <-.
      destruct bc as [|a bc]; [destruct (Nb eq_refl BC)|]. cbn in Ln. lia.
  - (* a call *)
    assert (Lg : lookup (c_op i) (g_functions (source tr)) = Some (source_component fk)) by (unfold source; cbn [g_functions]; rewrite lookup_map, Lf; reflexivity).
    rewrite Lg, Ins in St. cbn [tl source_component k_params k_start] in St.
    destruct (_ <=? _)%nat eqn:Le in St; [|discriminate]. injection St as <-. clear Le.
    destruct (split_target tb i e2 out C El Ho) as (rest & ins & rv & Efin & -> & Hi & Hr).
    assert (Hk' : tcomponent_of tr (Some (c_op i)) = Some fk) by exact Lf.
    destruct (LAY (Some (c_op i)) fk (t_start fk) Hk' (Reach_start _ _)) as (fb & fbc & Hfb & _).
    assert (Cf : compiled fb) by (apply (tr_compiled _ _ _ HT (Some (c_op i)) (t_start fk)); eapply tblock_of_intro; eauto).
    destruct (tr_entry _ _ _ HT (Some (c_op i)) fk fb Hk' Hfb) as (NDp & Up & Ag). rewrite Er in Ag.
    destruct (Tg ft (t_start fk) Hft) as (Ut & z & Ez & Lz & Tz). destruct (Tg back next Hbk) as (Ub & zb & Ezb & Lzb & Tzb).
    assert (Evs : ins = map (aval sem e2) (c_in i)).
    { apply holds_vals; [exact Hi|]. intros v Hv. split; [|eapply last_in_dummy; eauto]. rewrite Ins in Hv. destruct Hv as [<-|Hv]; [apply Ut|].
      apply in_app_iff in Hv as [Hv|[<-|[]]]; [auto|apply Ub]. }
    rewrite Ins in Evs. cbn [map] in Evs. rewrite (user_aval sem e2 ft Ut) in Evs.
    set (argv := map (aval sem e2) (args ++ [back])) in *. subst ins.
    assert (Fl : falls (blocks k) b next).
    { exists (emitted_block tb). split; [exact Elk|]. cbn [emitted_block eb_type eb_falls_to]. split; [|exact Ef]. destruct Ty as [<-|[<-|[]]]; simpl; auto. }
    unfold asm_for_split_instruction, cinstr_of in Last. cbn [ci_op] in Last.
    replace (mem (c_op i) fns) with true in Last by (symmetry; apply mem_lookup; congruence). injection Last as <-. cbn [app] in P.
    assert (Lp : length (t_params fk) = length argv). { unfold argv. rewrite Eps, map_length, !app_length. cbn. lia. }
    set (ef := bind_vars blank (t_params fk) argv).
    assert (Hp : Forall2 (holds sem dummy ef) (t_params fk) argv).
    { apply holds_bound; auto. }
    destruct (agree_holds fb _ _ _ ef argv Cf Ag Hp) as (vals & more & Em & M & Hvals). rewrite (M eq_refl), app_nil_r in Em. subst vals.
    exists (n + 1), (At (pos (t_start fk) L) {| m_stack := argv ++ rv ++ extra ++ below; m_world := mw; m_regs := regs |}). split; [|split; [|intros _; lia]].
    + rewrite (esteps_app _ _ _ _ _ _ _ _ E). erewrite estep_jump;
        [| exact (code_at_item _ _ _ _ P) | reflexivity | cbn; reflexivity | exact Tz | exact (TAG _ fk _ z Hk' (Reach_start _ _) Lz) ].
      unfold with_stack. cbn. rewrite <- app_assoc. reflexivity.
    + exists fk, fb, argv, (rv ++ extra ++ below). split; [exact Hk'|]. split; [exact Hfb|]. split; [constructor|]. split; [reflexivity|]. split; [reflexivity|].
      split; [exact W|].
      split; [intros e3 En3; split; [exact (Hvals e3 En3)|rewrite (tr_nothing _ _ _ HT _ fk fb Hk' Hfb); intros ? ? []]|]. split; [|intros _; apply tag_not_empty; congruence].
      eapply Backs_some with (kc := k) (tb := tb) (i := i) (next := next); cbn [fr_comp fr_block fr_env]; eauto.
      * apply Up. rewrite Eps. apply in_app_iff. simpl; auto.
      * unfold ef. rewrite Eps. rewrite <- Ezb, <- (user_aval sem e2 back Ub). apply bind_vars_In with (length ps).
        -- rewrite <- Eps. exact NDp.
        -- rewrite nth_error_app2, Nat.sub_diag by lia. reflexivity.
        -- unfold argv. rewrite map_app, nth_error_app2; rewrite map_length; [|lia]. rewrite Len, Nat.sub_diag. reflexivity.
      * exact (proj2 (proj2 (tr_regs _ _ _ HT c k b tb Hk Hb)) i fk El Lf).
      * destruct (t_return k) as [rk|] eqn:Erk; [|apply Backs_none; exact Erk]. rewrite J by discriminate. exact B.
  - (* a call that does not return *)
    assert (Lg : lookup (c_op i) (g_functions (source tr)) = Some (source_component fk)) by (unfold source; cbn [g_functions]; rewrite lookup_map, Lf; reflexivity).
    rewrite Lg, Ins in St. cbn [tl source_component k_params k_start] in St.
    destruct (_ <=? _)%nat eqn:Le in St; [|discriminate]. injection St as <-. clear Le.
    destruct (split_target tb i e2 out C El Ho) as (rest & ins & rv & Efin & -> & Hi & Hr).
    assert (Hk' : tcomponent_of tr (Some (c_op i)) = Some fk) by exact Lf.
    destruct (LAY (Some (c_op i)) fk (t_start fk) Hk' (Reach_start _ _)) as (fb & fbc & Hfb & _).
    assert (Cf : compiled fb) by (apply (tr_compiled _ _ _ HT (Some (c_op i)) (t_start fk)); eapply tblock_of_intro; eauto).
    destruct (tr_entry _ _ _ HT (Some (c_op i)) fk fb Hk' Hfb) as (NDp & Up & Ag). rewrite Er in Ag.
    destruct (Tg ft (t_start fk) Hft) as (Ut & z & Ez & Lz & Tz).
    assert (Evs : ins = map (aval sem e2) (c_in i)).
    { apply holds_vals; [exact Hi|]. intros v Hv. split; [|eapply last_in_dummy; eauto]. rewrite Ins in Hv. destruct Hv as [<-|Hv]; [apply Ut|auto]. }
    rewrite Ins in Evs. cbn [map] in Evs. rewrite (user_aval sem e2 ft Ut) in Evs. subst ins.
    unfold asm_for_split_instruction, cinstr_of in Last. cbn [ci_op] in Last.
    replace (mem (c_op i) fns) with true in Last by (symmetry; apply mem_lookup; congruence). injection Last as <-. cbn [app] in P.
    set (np := length (t_params fk)) in *. set (argv := map (aval sem e2) (firstn np args)).
    assert (Eargs : map (aval sem e2) args = argv ++ map (aval sem e2) (skipn np args)) by (unfold argv; rewrite <- map_app, firstn_skipn; reflexivity).
    assert (Lp : length (t_params fk) = length argv) by (unfold argv; rewrite map_length, firstn_length; fold np; lia).
    set (ef := bind_vars blank (t_params fk) (map (aval sem e2) args)).
    assert (Eef : ef = bind_vars blank (t_params fk) argv).
    { unfold ef. rewrite Eargs. clear - Lp. revert Lp. generalize argv, (t_params fk). intros a. induction a as [|x a IH]; intros [|p l] H; try discriminate.
      - destruct (map _ (skipn np args)); reflexivity.
      - cbn. rewrite IH by (cbn in H; lia). reflexivity. }
    assert (Hp : Forall2 (holds sem dummy ef) (t_params fk) argv).
    { rewrite Eef. apply holds_bound; auto. }
    destruct (agree_holds fb _ _ _ ef argv Cf Ag Hp) as (vals & more & Em & _ & Hvals).
    exists (n + 1), (At (pos (t_start fk) L) {| m_stack := map (aval sem e2) args ++ rv ++ extra ++ below; m_world := mw; m_regs := regs |}).
    split; [|split; [|intros _; lia]].
    + rewrite (esteps_app _ _ _ _ _ _ _ _ E). erewrite estep_jump;
        [| exact (code_at_item _ _ _ _ P) | reflexivity | cbn; reflexivity | exact Tz | exact (TAG _ fk _ z Hk' (Reach_start _ _) Lz) ].
      unfold with_stack. cbn. rewrite <- app_assoc. reflexivity.
    + exists fk, fb, vals, (more ++ map (aval sem e2) (skipn np args) ++ rv ++ extra ++ below). split; [exact Hk'|]. split; [exact Hfb|]. split; [constructor|]. split; [reflexivity|].
      split; [cbn [m_stack]; rewrite Eargs, Em, <- !app_assoc; reflexivity|].
      split; [exact W|]. split; [intros e3 En3; split; [exact (Hvals e3 En3)|rewrite (tr_nothing _ _ _ HT _ fk fb Hk' Hfb); intros ? ? []]|]. split; [apply Backs_none; exact Er|intros _; apply tag_not_empty; congruence].
  - (* a return *)
    destruct (not_function "functionReturn") as [NF1 NF2]; [simpl; tauto|]. rewrite Op, NF1 in St. cbn in St.
    destruct frames as [|fr frames]; [discriminate|]. rewrite source_block_of in St.
    destruct (split_target tb i e2 out C El Ho) as (rest & ins & rv & Efin & -> & Hi & Hr). rewrite Ef, Outs in Efin. cbn in Efin. subst rest. inversion Hr; subst. clear Hr.
    rewrite Ins in Hi. inversion Hi as [|? x ? xs Hx Hvs]; subst. clear Hi.
    destruct (tr_return _ _ _ HT c k ra b tb Hk Er Hb) as (_ & _ & _ & Nd).
    assert (Evs : xs = map (aval sem e2) values).
    { apply holds_vals; [exact Hvs|]. intros v Hv. split; [auto|]. eapply last_in_dummy; eauto. rewrite Ins. right. exact Hv. }
    inversion B as [? ? ? ? ? Q|? ? ? ? r0 z ? kc tbc ic next rest restvals below' Er0 Ur0 Ez Lz Hkc Hbc Rc Tyc Elc Efc NDo Uo Nr Efin Hrest Lic Inc Hq B' E1' E2' E3' E4']; subst; [congruence|].
    assert (r0 = ra) by congruence. subst r0. rewrite Er in J. rewrite (J ltac:(discriminate)) in *. cbn [app] in *.
    rewrite (tblock_of_intro _ _ _ _ Hkc Hbc) in St. cbn [option_map] in St. rewrite Elc, Ins in St. cbn [tl] in St.
    destruct (length (c_out ic) =? _)%nat eqn:Len in St; [|discriminate]. apply Nat.eqb_eq in Len. rewrite Efc in St. cbn in St. injection St as <-.
    assert (Cc : compiled tbc) by (apply (tr_compiled _ _ _ HT (fr_comp fr) (fr_block fr)); eapply tblock_of_intro; eauto).
    assert (Ex' : x = tag_word sem z).
    { rewrite <- Ez, <- (user_aval sem e2 ra Ur0). apply Hx; [apply Ur0|exact Nd]. }
    assert (Fl : falls (blocks kc) (fr_block fr) next).
    { exists (emitted_block tbc). split; [rewrite emitted_lookup, Hbc; reflexivity|]. cbn [emitted_block eb_type eb_falls_to]. split; [|exact Efc].
      destruct Tyc as [<-|[<-|[]]]; simpl; auto. }
    assert (Rn : reach kc next) by (eapply Reach_step; [exact Rc|left; exact Fl]).
    unfold asm_for_split_instruction, cinstr_of in Last. cbn [ci_op] in Last. rewrite Op, NF2 in Last. cbn in Last. injection Last as <-. cbn [app] in P.
    set (ec := bind_vars (fr_env fr) (c_out ic) (map (aval sem e2) values)).
    exists (n + 1), (At (pos next L) {| m_stack := (map (aval sem e2) values ++ restvals) ++ [] ++ below'; m_world := mw; m_regs := regs |}). split; [|split; [|intros _; lia]].
    + rewrite (esteps_app _ _ _ _ _ _ _ _ E). erewrite estep_jump;
        [| exact (code_at_item _ _ _ _ P) | reflexivity | cbn; reflexivity | rewrite Ex'; eapply HTag; eauto | exact (TAG _ kc next z Hkc Rn Lz) ].
      unfold with_stack. cbn. rewrite app_nil_r, <- app_assoc. reflexivity.
    + apply enter_block with (k := kc) (tb := tbc); auto.
      * left. exact Fl.
      * rewrite Efin. apply Forall2_app.
        -- apply holds_bound; auto.
        -- clear - Hrest Nr. induction Hrest as [|v y rest rv H F IH]; constructor; [|apply IH; intros u Hu; apply Nr; right; exact Hu].
           intros Hb Hd. rewrite (H Hb Hd). symmetry. apply aval_bind_other. apply Nr. left. reflexivity.
      * intros q v (S1 & S2 & S3) Nw. destruct (S3 ic k Elc Lic) as [S4 S5]. rewrite (Hq q v S1 S2 Nw S4). unfold ec. symmetry. apply bind_vars_notin. exact S5.
      * apply backs_env with (fr_env fr); [exact B'|]. intros rk Erk. apply bind_vars_notin.
        destruct (tr_return _ _ _ HT (fr_comp fr) kc rk (fr_block fr) tbc Hkc Erk Hbc) as (_ & _ & Q & _). exact (Q ic Elc).
      * exact (NE _ kc _ next Hkc Rc Fl).
  - (* a terminal instruction *)
    destruct (not_function (c_op i)) as [NF1 NF2]; [simpl in *; tauto|]. rewrite NF1 in St.
    replace (String.eqb (c_op i) "functionReturn") with false in St by (destruct Op as [<-|[<-|[<-|[<-|[]]]]]; reflexivity).
    replace (String.eqb (c_op i) "JUMP") with false in St by (destruct Op as [<-|[<-|[<-|[<-|[]]]]]; reflexivity).
    replace (String.eqb (c_op i) "JUMPI") with false in St by (destruct Op as [<-|[<-|[<-|[<-|[]]]]]; reflexivity). injection St as <-.
    destruct (split_target tb i e2 out C El Ho) as (rest & ins & rv & Efin & -> & Hi & Hr).
    assert (Evs : ins = map (aval sem e2) (c_in i)).
    { apply holds_vals; [exact Hi|]. intros v Hv. split; [auto|eapply last_in_dummy; eauto]. }
    assert (Hl : exists im, last = [{| a_name := upper (c_op i); a_value := im |}]).
    { unfold asm_for_split_instruction, cinstr_of, asm_from_op_info in Last. cbn [ci_op ci_literals] in Last. rewrite NF2 in Last.
      destruct Op as [Q|[Q|[Q|[Q|[]]]]]; rewrite <- Q in Last |- *; cbn in Last; injection Last as <-; cbn; eauto. }
    destruct Hl as (im & ->). cbn [app] in P. pose proof (code_at_item _ _ _ _ P) as It.
    exists (n + 1), (Stopped (upper (c_op i)) (map (aval sem e2) (c_in i)) mw). split; [|split; [|intros _; lia]].
    + rewrite (esteps_app _ _ _ _ _ _ _ _ E). cbn [ProgSem.esteps ProgSem.estep]. rewrite It. cbn [a_name a_value].
      replace (mem (upper (c_op i)) ["tag"; "JUMPDEST"]) with false by (destruct Op as [<-|[<-|[<-|[<-|[]]]]]; reflexivity).
      replace (String.eqb (upper (c_op i)) "JUMP") with false by (destruct Op as [<-|[<-|[<-|[<-|[]]]]]; reflexivity).
      replace (String.eqb (upper (c_op i)) "JUMPI") with false by (destruct Op as [<-|[<-|[<-|[<-|[]]]]]; reflexivity).
      replace (mem (upper (c_op i)) halting) with true by (destruct Op as [<-|[<-|[<-|[<-|[]]]]]; reflexivity).
      cbn [m_stack m_world]. rewrite (HA c b tb i im Tb El Op). subst ins. rewrite <- app_assoc.
      assert (Ll : length (c_in i) = length (map (aval sem e2) (c_in i))) by (rewrite map_length; reflexivity). rewrite Ll at 1.
      replace (_ <=? _)%nat with true by (symmetry; apply Nat.leb_le; rewrite app_length; lia).
      rewrite firstn_app_exact by exact Ll. reflexivity.
    + cbn. auto.
  - (* the end of the main code *)
    subst last. rewrite Ty in St, P. cbn in St. injection St as <-. cbn [app String.eqb Ascii.eqb Bool.eqb] in P.
    exists (n + 1), (Stopped "STOP" [] mw). split; [|split; [|intros _; lia]].
    + rewrite (esteps_app _ _ _ _ _ _ _ _ E). cbn [ProgSem.esteps ProgSem.estep]. rewrite (code_at_item _ _ _ _ P). cbn. rewrite HA0. reflexivity.
    + cbn. auto.
Qed.
End Sim.
