(** C41: the emitted code of a translated program does what the control-flow
    graphs of the program say. *)
From Verif Require Import Base Lexical SymExecModel AsmModel MachineSpec FootprintSpec LexicalProofs CheckerProofs CheckerSim DepsModel GreedyTailModel
  SpecModel SpecSem SpecProofs SpecBuild SpecSound SpecDce SpecDeps BlockSpec BlockProofs BlockProps UtilModel UtilProps EmitModel EmitSpec EmitProps
  RegModel RegsSpec ProgSem ProgSpec ProgBlock ProgLayout ProgProofs.
Open Scope string_scope. Open Scope list_scope.

(** The graphs as the emission needs them (C26): blocks with different names,
    tags that are different numbers. *)
Record emittable (tr : translation) (tags : list (string * Z)) (fuel : nat) : Prop := {
  em_formed : forall blocks start, In (blocks, start) (emitted_component (t_main tr) :: map snd (emitted_functions tr)) ->
    well_formed (map fst (t_functions tr)) tags blocks start /\ length blocks <= fuel;
  em_names : NoDup (concat (map (fun k => map fst (t_blocks k)) (t_main tr :: map snd (t_functions tr))));
  em_tags : forall x y z, lookup x tags = Some z -> lookup y tags = Some z -> x = y;
  em_positive : forall x z, lookup x tags = Some z -> (0 <= z)%Z
}.

(** The meaning of the operations: those of every block stay within the places
    of C39, the operations that end the execution take the words that the
    program gives them, and jumps understand the words pushed for tags. *)
Record machine_like {V LV} (sem : semantics V place LV) (val : V -> Z) (tag_of : V -> option Z) (tr : translation) (tags : list (string * Z)) : Prop := {
  ml_blocks : forall c b tb, tblock_of tr c b = Some tb -> evm_like sem val (p_instrs (t_block tb));
  ml_end : forall c b tb i im, tblock_of tr c b = Some tb -> p_last (t_block tb) = Some i ->
    In (c_op i) ["return"; "revert"; "stop"; "selfdestruct"] -> prim_arity sem (upper (c_op i)) im = length (c_in i);
  ml_stop : forall im, prim_arity sem "STOP" im = 0;
  ml_tags : forall b z, lookup b tags = Some z -> tag_of (tag_word sem z) = Some z;
  (* the words of memory used as registers do not overlap, and keep what is written in them *)
  ml_registers : exists load, register_ops sem load (registers_of tr)
}.

Lemma emitted_names tr : map fst (emitted_functions tr) = map fst (t_functions tr).
Proof. unfold emitted_functions. rewrite map_map. reflexivity. Qed.

Lemma lookup_of_In {A} x (a : A) d : NoDup (map fst d) -> In (x, a) d -> lookup x d = Some a.
Proof.
  induction d as [|[y b] d IH]; intros ND H; [destruct H|]. cbn in ND |- *. inversion ND as [|? ? N ND']; subst.
  destruct (String.eqb_spec y x) as [E|Nx]; destruct H as [H|H].
  - congruence.
  - destruct N. apply in_map_iff. exists (x, a). auto.
  - congruence.
  - auto.
Qed.
Lemma emitted_list tr bs s : NoDup (map fst (t_functions tr)) -> In (bs, s) (emitted_component (t_main tr) :: map snd (emitted_functions tr)) ->
  exists c k, tcomponent_of tr c = Some k /\ emitted_component k = (bs, s).
Proof.
  intros ND [H|H]; [exists None, (t_main tr); auto|]. unfold emitted_functions in H. rewrite map_map in H. cbn [snd] in H.
  apply in_map_iff in H as ([f k] & E & H). exists (Some f), k. split; [|exact E]. cbn. apply lookup_of_In; assumption.
Qed.
Lemma emitted_list_of tr c k : tcomponent_of tr c = Some k -> In (emitted_component k) (emitted_component (t_main tr) :: map snd (emitted_functions tr)).
Proof.
  destruct c as [f|]; cbn [tcomponent_of]; intros H; [|injection H as <-; left; reflexivity]. right. unfold emitted_functions. rewrite map_map. cbn [snd].
  apply in_map_iff. exists (f, k). split; [reflexivity|]. apply lookup_In. exact H.
Qed.

Lemma translated_no_tag tr tags dummy fuel bs s b : translated tr tags dummy -> emittable tr tags fuel ->
  In (bs, s) (emitted_component (t_main tr) :: map snd (emitted_functions tr)) -> no_tag_item (map fst (t_functions tr)) bs b.
Proof.
  intros HT EM H blk ids last a Lb Ids Last Ha. destruct (emitted_list tr bs s (proj1 (tr_functions _ _ _ HT)) H) as (c & k & Hk & E).
  unfold emitted_component in E. injection E as <- _. rewrite lookup_map in Lb. destruct (lookup b (t_blocks k)) as [tb|] eqn:Etb; [|discriminate]. injection Lb as <-.
  assert (C : compiled tb) by (apply (tr_compiled _ _ _ HT c b); unfold tblock_of; rewrite Hk; exact Etb).
  apply in_app_iff in Ha as [Ha|Ha].
  - pose proof (code_no_control tb ids C Ids a Ha) as N. intros Q. apply N. rewrite Q. left. reflexivity.
  - cbn [emitted_block eb_split] in Last. destruct (p_last (t_block tb)) as [i|]; cbn [option_map] in Last; [|subst last; destruct Ha].
    unfold asm_for_split_instruction, asm_from_op_info in Last.
    destruct (mem _ _); [injection Last as <-; destruct Ha as [<-|[]]; discriminate|].
    destruct (String.eqb _ "functionReturn"); [injection Last as <-; destruct Ha as [<-|[]]; discriminate|].
    destruct (startswith "verbatim" _); [injection Last as <-; destruct Ha as [<-|[]]; discriminate|].
    destruct (startswith "assignimmutable" _).
    + destruct (ci_literals _) as [[|v l]|]; [discriminate| |discriminate]. injection Last as <-. destruct Ha as [<-|[]]. apply upper_not_tag.
    + injection Last as <-. destruct Ha as [<-|[]]. apply upper_not_tag.
Qed.

Section Program.
Context {V LV : Type}.
Variable sem : semantics V place LV.
Variable truth : V -> bool.
Variable blank : string -> V.
Variable tag_of : V -> option Z.
Variable val : V -> Z.

(** A configuration of the program and a state of the machine: stopped for the
    same reason with the same words, or both going on; the same state outside
    the registers. *)
Definition agrees (R : list Z) (s : config V place LV) (r : running V place LV) : Prop :=
  match s, r with
  | Halt op args w, Stopped op' args' w' => op' = op /\ args' = args /\ forall l, ~ in_registers R l -> w' l = w l
  | Run _ _ _ _ w _, At _ m => forall l, ~ in_registers R l -> m_world m l = w l
  | _, _ => False
  end.

Lemma at_block_agrees tr tags dummy L load full s r : at_block sem tr tags dummy L load full s r -> agrees (registers_of tr) s r.
Proof.
  destruct s, r; cbn; auto.
  - intros (k & tb & vals & below & _ & _ & _ & _ & _ & W & _) l N. symmetry. apply W. exact N.
  - intros (-> & -> & W). split; [reflexivity|]. split; [reflexivity|]. intros l N. symmetry. apply W. exact N.
Qed.

Lemma steps_simulated tr tags dummy fuel code : translated tr tags dummy -> emittable tr tags fuel ->
  traverse_cfg fuel tags (emitted_component (t_main tr)) (emitted_functions tr) = Ok code -> machine_like sem val tag_of tr tags ->
  forall e w n s st regs,
  (forall n s, csteps sem truth blank n (source tr) (Run None None (t_start (t_main tr)) e w []) = Some s -> spares sem val (registers_of tr) (source tr) s) ->
  csteps sem truth blank n (source tr) (Run None None (t_start (t_main tr)) e w []) = Some s ->
  exists k r, n <= S k /\ esteps sem truth tag_of k code (At 0 {| m_stack := st; m_world := w; m_regs := regs |}) = Some r /\ agrees (registers_of tr) s r.
Proof.
  intros HT EM Tc ML e w n s st regs Spare Hs. destruct (ml_registers _ _ _ _ _ ML) as (load & RO).
  assert (WF := em_formed _ _ _ EM). rewrite <- emitted_names in WF.
  destruct (object_layout_partial fuel tags (emitted_component (t_main tr)) (emitted_functions tr) WF) as (parts & E & F). rewrite Tc in E. injection E as ->.
  rewrite emitted_names in F, WF.
  assert (ND : NoDup (concat (map (fun l : list (string * eblock) * string => map fst (fst l)) (emitted_component (t_main tr) :: map snd (emitted_functions tr))))).
  { replace (map _ (emitted_component (t_main tr) :: _)) with (map (fun k => map fst (t_blocks k)) (t_main tr :: map snd (t_functions tr))); [exact (em_names _ _ _ EM)|].
    cbn [map]. unfold emitted_functions. rewrite !map_map. f_equal; [unfold emitted_component; cbn; rewrite map_map; reflexivity|].
    apply map_ext. intros [f k]. unfold emitted_component. cbn. rewrite map_map. reflexivity. }
  destruct (place_all _ _ _ _ F ND) as (L & EL & P & First & _). rewrite <- EL. clear EL F Tc parts.
  set (step := step_simulated sem truth blank tag_of val tr tags dummy L HT (ml_blocks _ _ _ _ _ ML) (ml_end _ _ _ _ _ ML) (ml_stop _ _ _ _ _ ML)
    load RO (ml_tags _ _ _ _ _ ML) (pl_nodup _ _ _ _ P)).
  assert (LAY : forall c k b, tcomponent_of tr c = Some k -> reachable (fst (emitted_component k)) (t_start k) b ->
    exists tb bc, lookup b (t_blocks k) = Some tb /\ In (b, bc) L /\ block_code (map fst (t_functions tr)) tags (fst (emitted_component k)) b bc).
  { intros c k b Hk R. destruct (pl_all _ _ _ _ P (fst (emitted_component k)) (t_start k) b (emitted_list_of tr c k Hk) R) as (bc & H1 & H2).
    pose proof H2 as (blk & _ & _ & Lb & _). rewrite emitted_lookup in Lb. destruct (lookup b (t_blocks k)) as [tb|]; [|discriminate]. exists tb, bc. auto. }
  assert (Step : forall s1 s2 r, at_block sem tr tags dummy L load false s1 r -> cstep sem truth blank (source tr) s1 = Some s2 -> spares sem val (registers_of tr) (source tr) s1 ->
    exists n r', esteps sem truth tag_of n (codes L) r = Some r' /\ at_block sem tr tags dummy L load true s2 r' /\ (at_block sem tr tags dummy L load true s1 r -> 1 <= n)).
  { intros s1 s2 r A St Sp. destruct s1 as [c from b e1 w1 frames|]; [|discriminate St]. refine (step LAY _ _ _ c from b e1 w1 frames s2 r A St Sp).
    - intros c' k b1 b2 Hk R Fl. exact (pl_adjacent _ _ _ _ P _ (t_start k) b1 b2 (emitted_list_of tr c' k Hk) R Fl).
    - intros c' k b1 z Hk R Lz. apply (placed_tag _ _ _ _ P (em_tags _ _ _ EM) (em_positive _ _ _ EM)) with (bs := fst (emitted_component k)) (s := t_start k); auto.
      + intros bs s0 x Hl _. eapply translated_no_tag; eauto.
      + exact (emitted_list_of tr c' k Hk).
    - intros c' k b1 b2 Hk R Fl. destruct (WF _ _ (emitted_list_of tr c' k Hk)) as [W _]. exact (wf_not_empty _ _ _ _ W b1 b2 R Fl). }
  assert (weaken : forall s r, at_block sem tr tags dummy L load true s r -> at_block sem tr tags dummy L load false s r).
  { intros [c from b e1 w1 fr|op args w1] [pc m|op' args' w']; cbn; auto. intros (k & tb & vals & below & H1 & H2 & H3 & H4 & H5 & H6 & H7 & H8 & _).
    exists k, tb, vals, below. do 8 (split; [assumption|]). discriminate. }
  assert (Go : forall n s1 r, at_block sem tr tags dummy L load true s1 r -> (forall n s, csteps sem truth blank n (source tr) s1 = Some s -> spares sem val (registers_of tr) (source tr) s) ->
    csteps sem truth blank n (source tr) s1 = Some s -> exists k r', n <= k /\ esteps sem truth tag_of k (codes L) r = Some r' /\ at_block sem tr tags dummy L load true s r').
  { clear Hs n. induction n as [|n IH]; intros s1 r A Sp Hs; cbn [csteps] in Hs; [injection Hs as <-; exists 0, r; auto|].
    destruct (cstep sem truth blank (source tr) s1) as [s2|] eqn:St; [|discriminate].
    destruct (Step s1 s2 r (weaken _ _ A) St (Sp 0 s1 eq_refl)) as (n1 & r1 & E1 & A1 & N1).
    destruct (IH s2 r1 A1 (fun n s Q => Sp (S n) s ltac:(cbn [csteps]; rewrite St; exact Q)) Hs) as (k & r' & Lk & E2 & A2).
    exists (n1 + k), r'. specialize (N1 A). split; [lia|]. split; [|exact A2]. rewrite (esteps_app _ _ _ _ _ _ _ _ E1). exact E2. }
  assert (A0 : at_block sem tr tags dummy L load false (Run None None (t_start (t_main tr)) e w []) (At 0 {| m_stack := st; m_world := w; m_regs := regs |})).
  { destruct (LAY None (t_main tr) (t_start (t_main tr)) eq_refl (Reach_start _ _)) as (tb & bc & Hb & _).
    destruct (tr_main _ _ _ HT) as [Mp Mr]. destruct (tr_entry _ _ _ HT None (t_main tr) tb eq_refl Hb) as (_ & _ & (keep & rest & Ek & _ & Pk)).
    rewrite Mp in Ek. destruct keep; [|discriminate]. inversion Pk as [Ei0 Ei|]. exists (t_main tr), tb, [], st.
    split; [reflexivity|]. split; [exact Hb|]. split; [constructor|]. split.
    { destruct (First _ _ _ (f_equal (fun x => x :: map snd (emitted_functions tr)) (surjective_pairing (emitted_component (t_main tr))))) as (L' & EL).
      destruct L as [|[x d] L]; [discriminate|]. cbn in EL. injection EL as -> _. cbn. rewrite String.eqb_refl. reflexivity. }
    split; [reflexivity|]. split; [intros l _; reflexivity|].
    split; [intros e1 _; split; [rewrite <- Ei; constructor|rewrite (tr_nothing _ _ _ HT None (t_main tr) tb eq_refl Hb); intros ? ? []]|]. split; [apply Backs_none; exact Mr|discriminate]. }
  destruct n as [|n]; cbn [csteps] in Hs.
  - injection Hs as <-. exists 0, (At 0 {| m_stack := st; m_world := w; m_regs := regs |}). split; [lia|]. split; [reflexivity|]. eapply at_block_agrees; exact A0.
  - destruct (cstep sem truth blank (source tr) _) as [s2|] eqn:St; [|discriminate].
    destruct (Step _ s2 _ A0 St (Spare 0 _ eq_refl)) as (n1 & r1 & E1 & A1 & _).
    destruct (Go n s2 r1 A1 (fun n s Q => Spare (S n) s ltac:(cbn [csteps]; rewrite St; exact Q)) Hs) as (k & r' & Lk & E2 & A2).
    exists (n1 + k), r'. split; [lia|]. split; [|eapply at_block_agrees; exact A2]. rewrite (esteps_app _ _ _ _ _ _ _ _ E1). exact E2.
Qed.
End Program.

(** Whatever the graphs of the program do from their start, the code does from
    its first item, whatever the machine has in its stack: it stops for the same
    reason, with the same words and the same state; and it goes on forever,
    passing through the same states, when the program does.  Values that cannot
    be reached in the stack can be kept in words of memory that the program does
    not use; only in those words can the states differ.
    Not covered: "invalid" and other operations that end a block without being
    one of those of [ending], and where the layouts come from. *)
Theorem program_simulated_partial : forall tr tags dummy fuel code V LV (sem : semantics V place LV) truth blank tag_of val,
  translated tr tags dummy -> emittable tr tags fuel ->
  traverse_cfg fuel tags (emitted_component (t_main tr)) (emitted_functions tr) = Ok code ->
  machine_like sem val tag_of tr tags ->
  forall e w st regs,
  let start := Run None None (t_start (t_main tr)) e w [] in
  let machine := At 0 {| m_stack := st; m_world := w; m_regs := regs |} in
  (* the program does not use the words of memory that the code uses *)
  (forall n s, csteps sem truth blank n (source tr) start = Some s -> spares sem val (registers_of tr) (source tr) s) ->
  (* it stops as the program does *)
  (forall n op args w', csteps sem truth blank n (source tr) start = Some (Halt op args w') ->
     exists k w'', esteps sem truth tag_of k code machine = Some (Stopped op args w'') /\ forall l, ~ in_registers (registers_of tr) l -> w'' l = w' l) /\
  (* it runs at least as long as the program does *)
  (forall n c from b e' w' frames, csteps sem truth blank n (source tr) start = Some (Run c from b e' w' frames) ->
     exists k pc m, n <= S k /\ esteps sem truth tag_of k code machine = Some (At pc m) /\ forall l, ~ in_registers (registers_of tr) l -> m_world m l = w' l).
Proof.
  intros tr tags dummy fuel code V LV sem truth blank tag_of val HT EM Tc ML e w st regs start machine Sp. split.
  - intros n op args w' Hs. destruct (steps_simulated sem truth blank tag_of val tr tags dummy fuel code HT EM Tc ML e w n _ st regs Sp Hs) as (k & r & _ & E & A).
    destruct r as [pc m|op' args' w'']; [destruct A|]. destruct A as (-> & -> & W). exists k, w''. auto.
  - intros n c from b e' w' frames Hs. destruct (steps_simulated sem truth blank tag_of val tr tags dummy fuel code HT EM Tc ML e w n _ st regs Sp Hs) as (k & r & Lk & E & A).
    destruct r as [pc m|op' args' w'']; [|destruct A]. exists k, pc, m. auto.
Qed.
Print Assumptions program_simulated_partial.

(** So a program that never stops and never goes wrong is translated to code
    that never stops and never goes wrong. *)
Corollary program_diverges_partial : forall tr tags dummy fuel code V LV (sem : semantics V place LV) truth blank tag_of val,
  translated tr tags dummy -> emittable tr tags fuel ->
  traverse_cfg fuel tags (emitted_component (t_main tr)) (emitted_functions tr) = Ok code ->
  machine_like sem val tag_of tr tags ->
  forall e w st regs,
  (forall n s, csteps sem truth blank n (source tr) (Run None None (t_start (t_main tr)) e w []) = Some s -> spares sem val (registers_of tr) (source tr) s) ->
  (forall n, exists c from b e' w' frames,
     csteps sem truth blank n (source tr) (Run None None (t_start (t_main tr)) e w []) = Some (Run c from b e' w' frames)) ->
  forall k, exists pc m, esteps sem truth tag_of k code (At 0 {| m_stack := st; m_world := w; m_regs := regs |}) = Some (At pc m).
Proof.
  intros tr tags dummy fuel code V LV sem truth blank tag_of val HT EM Tc ML e w st regs Sp H k.
  destruct (H (S k)) as (c & from & b & e' & w' & frames & Hs).
  destruct (proj2 (program_simulated_partial tr tags dummy fuel code V LV sem truth blank tag_of val HT EM Tc ML e w st regs Sp) _ _ _ _ _ _ _ Hs) as (k' & pc & m & Lk & E & _).
  assert (D : forall a b s pc m, a <= b -> esteps sem truth tag_of b code s = Some (At pc m) -> exists pc' m', esteps sem truth tag_of a code s = Some (At pc' m')).
  { clear. induction a as [|a IH]; intros b s pc m Le E.
    - destruct s as [p0 m0|op args w0]; [cbn; eauto|]. destruct b; cbn in E; discriminate.
    - destruct b as [|b]; [lia|]. cbn [esteps] in E |- *. destruct (estep sem truth tag_of code s) as [s'|]; [|discriminate]. eapply IH; [|exact E]. lia. }
  eapply D; [|exact E]. lia.
Qed.
Print Assumptions program_diverges_partial.

(** When no value is kept in memory nothing is asked of the program, and the
    states are the same everywhere. *)
Lemma no_registers tr : registers_of tr = [] -> forall l, ~ in_registers (registers_of tr) l.
Proof. intros -> l (r & [] & _). Qed.
Lemma no_registers_spares {V LV} (sem : semantics V place LV) val tr g s : registers_of tr = [] -> spares sem val (registers_of tr) g s.
Proof. intros E. destruct s; cbn; auto. intros blk e1 _ _ pre i post _ l Hl. destruct (no_registers tr E l Hl). Qed.
Lemma no_registers_ops {V LV} (sem : semantics V place LV) (v : V) tr : registers_of tr = [] -> exists load, register_ops sem load (registers_of tr).
Proof.
  intros ->. exists (fun _ _ => v). constructor; [intros r r' [] | intros r [] | intros r w [] | intros r x w [] | intros r w w' [] | intros N; destruct (N eq_refl)].
Qed.
Corollary program_simulated_stack_partial : forall tr tags dummy fuel code V LV (sem : semantics V place LV) truth blank tag_of val,
  translated tr tags dummy -> emittable tr tags fuel -> registers_of tr = [] ->
  traverse_cfg fuel tags (emitted_component (t_main tr)) (emitted_functions tr) = Ok code ->
  machine_like sem val tag_of tr tags ->
  forall e w st regs,
  let start := Run None None (t_start (t_main tr)) e w [] in
  let machine := At 0 {| m_stack := st; m_world := w; m_regs := regs |} in
  (forall n op args w', csteps sem truth blank n (source tr) start = Some (Halt op args w') ->
     exists k w'', esteps sem truth tag_of k code machine = Some (Stopped op args w'') /\ forall l, w'' l = w' l) /\
  (forall n c from b e' w' frames, csteps sem truth blank n (source tr) start = Some (Run c from b e' w' frames) ->
     exists k pc m, n <= S k /\ esteps sem truth tag_of k code machine = Some (At pc m) /\ forall l, m_world m l = w' l).
Proof.
  intros tr tags dummy fuel code V LV sem truth blank tag_of val HT EM Rg Tc ML e w st regs start machine.
  destruct (program_simulated_partial tr tags dummy fuel code V LV sem truth blank tag_of val HT EM Tc ML e w st regs) as [H1 H2].
  { intros n s _. apply no_registers_spares. exact Rg. }
  split.
  - intros n op args w' Hs. destruct (H1 n op args w' Hs) as (k & w'' & E & W). exists k, w''. split; [exact E|]. intros l. apply W, no_registers. exact Rg.
  - intros n c from b e' w' frames Hs. destruct (H2 n c from b e' w' frames Hs) as (k & pc & m & Lk & E & W). exists k, pc, m. split; [exact Lk|]. split; [exact E|].
    intros l. apply W, no_registers. exact Rg.
Qed.
Print Assumptions program_simulated_stack_partial.
