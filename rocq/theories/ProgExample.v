(** A program with a loop, a function and values in memory that meets the
    hypotheses of C41. *)
From Verif Require Import Base Lexical SymExecModel AsmModel MachineSpec FootprintSpec LexicalProofs CheckerProofs CheckerSim DepsModel DepsSpec GreedyTailModel
  SpecModel SpecSem SpecProofs SpecBuild SpecSound SpecDce SpecDeps SpecCheck BlockSpec BlockProofs BlockProps UtilModel UtilProps EmitModel EmitSpec EmitProps EmitExamples
  RegModel RegsSpec ProgSem ProgSpec ProgBlock ProgLayout ProgProofs ProgProps.
Open Scope string_scope. Open Scope list_scope.

(** k := 7; n := 3; while (n != 0) { n := f(n) }; sstore(n, k); stop, with
    f(a) = a - 1.  The value of [k] is kept in the word at 128 of the memory
    during the loop; [f] uses the word at 160. *)
Definition cfg_ins (op : string) (args outs : list string) : cins := {| c_op := op; c_in := args; c_out := outs; c_lit := None |}.
Definition tag_ins (t : string) : cins := cfg_ins "PUSH [tag]" [] [t].

Definition b_start : pblock := {| p_phis := []; p_entries := []; p_instrs := [cfg_ins "LiteralAssignment" ["0x07"] ["k"]; cfg_ins "LiteralAssignment" ["0x03"] ["n"]]; p_last := None;
  p_type := "falls_to"; p_jump_to := None; p_falls_to := Some "Loop" |}.
Definition b_loop : pblock := {| p_phis := [("x", ["n"; "y"])]; p_entries := ["Block0"; "Next"]; p_instrs := [cfg_ins "iszero" ["x"] ["c"]; tag_ins "1"];
  p_last := Some (cfg_ins "JUMPI" ["1"; "c"] []); p_type := "conditional"; p_jump_to := Some "Exit"; p_falls_to := Some "Body" |}.
Definition b_body : pblock := {| p_phis := []; p_entries := ["Loop"]; p_instrs := [tag_ins "2"; tag_ins "3"];
  p_last := Some (cfg_ins "f" ["2"; "x"; "3"] ["y"]); p_type := "sub_block"; p_jump_to := None; p_falls_to := Some "Next" |}.
Definition b_next : pblock := {| p_phis := []; p_entries := ["Body"]; p_instrs := [tag_ins "4"];
  p_last := Some (cfg_ins "JUMP" ["4"] []); p_type := "unconditional"; p_jump_to := Some "Loop"; p_falls_to := None |}.
Definition b_exit : pblock := {| p_phis := []; p_entries := ["Loop"]; p_instrs := [cfg_ins "sstore" ["x"; "k"] []];
  p_last := Some (cfg_ins "stop" [] []); p_type := "terminal"; p_jump_to := None; p_falls_to := None |}.
Definition b_f : pblock := {| p_phis := []; p_entries := []; p_instrs := [cfg_ins "sub" ["a"; "0x01"] ["b"]];
  p_last := Some (cfg_ins "functionReturn" ["r"; "b"] []); p_type := "FunctionReturn"; p_jump_to := None; p_falls_to := None |}.

Definition t_of (b : pblock) (initial final target ids : list string) (junk : bool) (slots : list Z) (h : held) : tblock :=
  {| t_block := b; t_initial := initial; t_final := final; t_target := target;
     t_spec := match build_spec (p_instrs b) (p_last b) initial final with Ok s => s | Raise _ => {| s_src := []; s_tgt := []; s_instrs := []; s_deps := [] |} end;
     t_ids := ids; t_junk := junk; t_slots := slots; t_held := h |}.
Definition t_main_blocks : list (string * tblock) :=
  [ ("Block0", t_of b_start [] ["n"; "k"] ["n"; "k"] ["PUSH_0"; "DUP1"; "VSET(k)"; "PUSH_1"] true [128%Z] []);
    ("Loop", t_of b_loop ["x"] ["x"] ["1"; "c"; "x"] ["DUP1"; "ISZERO_0"; "PUSH [TAG]_0"] true [] [(128%Z, "k")]);
    ("Body", t_of b_body ["x"] ["y"] ["2"; "x"; "3"] ["PUSH [TAG]_1"; "SWAP1"; "PUSH [TAG]_0"] true [] [(128%Z, "k")]);
    ("Next", t_of b_next ["y"] ["y"] ["4"; "y"] ["PUSH [TAG]_0"] true [] [(128%Z, "k")]);
    ("Exit", t_of b_exit ["x"] ["x"] ["x"] ["VGET(k)"; "DUP2"; "SSTORE_0"] true [128%Z] [(128%Z, "k")]) ].
Definition t_f_blocks : list (string * tblock) :=
  [ ("f_Block0", t_of b_f ["a"; "r"] [] ["r"; "b"] ["DUP1"; "VSET(a)"; "PUSH_0"; "SWAP1"; "SUB_0"; "SWAP1"] false [160%Z] []) ].
Definition countdown : translation :=
  {| t_main := {| t_params := []; t_return := None; t_start := "Block0"; t_blocks := t_main_blocks; t_regs := [128; 160]%Z |};
     t_functions := [("f", {| t_params := ["a"; "r"]; t_return := Some "r"; t_start := "f_Block0"; t_blocks := t_f_blocks; t_regs := [160%Z] |})] |}.
Definition countdown_tags : list (string * Z) := [("Exit", 1%Z); ("f_Block0", 2%Z); ("Next", 3%Z); ("Loop", 4%Z)].

(** Words are numbers, and their operations the usual ones. *)
Definition small_prim (op : string) (im : option string) (args : list Z) (w : place -> Z) : list Z * (place -> Z) :=
  if String.eqb op "ISZERO" then match args with [a] => ([if (a =? 0)%Z then 1%Z else 0%Z], w) | _ => ([], w) end
  else if String.eqb op "SUB" then match args with [a; b] => ([(a - b)%Z], w) | _ => ([], w) end
  else if String.eqb op "SSTORE" then
    match args with
    | [k; v] => ([], fun l => match l with Slot x => if (k =? x)%Z then v else w l | _ => w l end)
    | _ => ([], w)
    end
  (* a word of memory is kept in the first of its bytes *)
  else if String.eqb op "MLOAD" then match args with [a] => ([w (Byte a)], w) | _ => ([], w) end
  else if String.eqb op "MSTORE" then
    match args with
    | [a; v] => ([], fun l => match l with Byte x => if (a =? x)%Z then v else w l | _ => w l end)
    | _ => ([], w)
    end
  else ([], w).
Definition small_sem : semantics Z place Z :=
  {| word_of_Z := fun z => z; tag_word := fun z => z;
     prim_arity := fun op _ => if mem op ["ISZERO"; "LITERALASSIGNMENT"; "MLOAD"] then 1 else if mem op ["SUB"; "SSTORE"; "MSTORE"] then 2 else 0;
     prim := small_prim |}.
Definition small_ins (i : cins) : bool :=
  match c_lit i with Some _ => false | None => true end &&
  if String.eqb (c_op i) "LiteralAssignment" then (length (c_in i) =? 1)%nat && (length (c_out i) =? 1)%nat
  else if String.eqb (c_op i) "PUSH [tag]" then
    match c_in i, c_out i with [], [t] => match py_int t with Some _ => true | None => false end | _, _ => false end
  else if String.eqb (c_op i) "iszero" then (length (c_in i) =? 1)%nat && (length (c_out i) =? 1)%nat
  else if String.eqb (c_op i) "sub" then (length (c_in i) =? 2)%nat && (length (c_out i) =? 1)%nat
  else if String.eqb (c_op i) "sstore" then (length (c_in i) =? 2)%nat && (length (c_out i) =? 0)%nat
  else false.

Lemma small_like instrs : forallb small_ins instrs = true -> evm_like small_sem (fun z => z) instrs.
Proof.
  rewrite forallb_forall. intros H.
  assert (K : forall i, In i instrs ->
    (c_op i = "LiteralAssignment" /\ length (c_in i) = 1 /\ length (c_out i) = 1) \/
    (c_op i = "PUSH [tag]" /\ c_in i = [] /\ exists t z, c_out i = [t] /\ py_int t = Some z) \/
    (c_op i = "iszero" /\ length (c_in i) = 1 /\ length (c_out i) = 1) \/
    (c_op i = "sub" /\ length (c_in i) = 2 /\ length (c_out i) = 1) \/
    (c_op i = "sstore" /\ length (c_in i) = 2 /\ length (c_out i) = 0)).
  { intros i Hi. specialize (H i Hi). unfold small_ins in H. apply andb_true_iff in H as [_ H].
    destruct (String.eqb_spec (c_op i) "LiteralAssignment"); [apply andb_true_iff in H as [H1 H2]; apply Nat.eqb_eq in H1, H2; auto 12|].
    destruct (String.eqb_spec (c_op i) "PUSH [tag]").
    { right; left. destruct (c_in i); [|discriminate]. destruct (c_out i) as [|t [|]]; try discriminate. destruct (py_int t) as [z|] eqn:Q; [|discriminate].
      split; [assumption|]. split; [reflexivity|]. exists t, z. auto. }
    destruct (String.eqb_spec (c_op i) "iszero"); [apply andb_true_iff in H as [H1 H2]; apply Nat.eqb_eq in H1, H2; auto 12|].
    destruct (String.eqb_spec (c_op i) "sub"); [apply andb_true_iff in H as [H1 H2]; apply Nat.eqb_eq in H1, H2; auto 12|].
    destruct (String.eqb_spec (c_op i) "sstore"); [apply andb_true_iff in H as [H1 H2]; apply Nat.eqb_eq in H1, H2; auto 12|discriminate]. }
  assert (D : forall i args w, In i instrs ->
    (c_op i <> "sstore" /\ cfg_denote small_sem i args w = (fst (cfg_denote small_sem i args (fun _ => 0%Z)), w)) \/
    (c_op i = "sstore" /\ cfg_denote small_sem i args w = small_prim "SSTORE" (cfg_imm i) args w)).
  { intros i args w Hi. destruct (K i Hi) as [(E & _)|[(E & _ & t & z & Eo & Ez)|[(E & _)|[(E & _)|(E & _)]]]]; unfold cfg_denote; rewrite E; cbn.
    - left. split; [discriminate|reflexivity].
    - left. rewrite Eo, Ez. split; [discriminate|reflexivity].
    - left. split; [discriminate|]. unfold small_prim. cbn. destruct args as [|a [|]]; reflexivity.
    - left. split; [discriminate|]. unfold small_prim. cbn. destruct args as [|a [|b [|]]]; reflexivity.
    - right. split; reflexivity. }
  constructor.
  - intros. reflexivity.
  - intros i args w1 w2 Hi _. destruct (D i args w1 Hi) as [(N & E1)|(E & E1)], (D i args w2 Hi) as [(N' & E2)|(E' & E2)]; try contradiction; rewrite E1, E2; [reflexivity|].
    unfold small_prim. cbn. destruct args as [|a [|b [|]]]; reflexivity.
  - intros i args w1 w2 Hi Q l Hl. assert (El : w1 l = w2 l) by (apply Q; right; exact Hl).
    destruct (D i args w1 Hi) as [(N & E1)|(E & E1)], (D i args w2 Hi) as [(N' & E2)|(E' & E2)]; try contradiction; rewrite E1, E2; [exact El|].
    unfold small_prim. cbn. destruct args as [|a [|b [|]]]; cbn; auto. destruct l; auto. rewrite El. reflexivity.
  - intros i args w l Hi Hl. destruct (D i args w Hi) as [(N & E1)|(E & E1)]; rewrite E1; [reflexivity|].
    unfold small_prim. cbn. destruct args as [|a [|b [|]]]; cbn; auto. destruct l; auto. rewrite E in Hl. cbn in Hl. rewrite orb_false_r in Hl. rewrite Hl. reflexivity.
  - intros i args w Hi Hl. destruct (D i args w Hi) as [(N & E1)|(E & E1)]; rewrite E1; [reflexivity|].
    unfold small_prim. cbn. destruct args as [|a [|b [|]]]; cbn; auto. exfalso. specialize (Hl (Slot a)). rewrite E in Hl. cbn in Hl. rewrite Z.eqb_refl in Hl. discriminate.
  - intros i a b w Hi Ho. exfalso. destruct (K i Hi) as [(E & _)|[(E & _)|[(E & _)|[(E & _)|(E & _)]]]]; rewrite E in Ho; cbn in Ho; intuition discriminate.
  - intros i args w Hi Hl. destruct (K i Hi) as [(E & L1 & L2)|[(E & Ei & t & z & Eo & Ez)|[(E & L1 & L2)|[(E & L1 & L2)|(E & L1 & L2)]]]]; unfold cfg_denote; rewrite E; cbn.
    + congruence.
    + rewrite Eo, Ez. reflexivity.
    + rewrite L1 in Hl. rewrite L2. destruct args as [|a [|]]; try discriminate. reflexivity.
    + rewrite L1 in Hl. rewrite L2. destruct args as [|a [|b [|]]]; try discriminate. reflexivity.
    + rewrite L1 in Hl. rewrite L2. destruct args as [|a [|b [|]]]; try discriminate. reflexivity.
  - intros i im Hi. destruct (K i Hi) as [(E & L1 & L2)|[(E & Ei & t & z & Eo & Ez)|[(E & L1 & L2)|[(E & L1 & L2)|(E & L1 & L2)]]]]; rewrite E; cbn; auto.
    rewrite Ei. reflexivity.
  - intros op im [<-|[<-|[]]]; reflexivity.
Qed.

(** The blocks. *)
Lemma countdown_blocks c b tb : tblock_of countdown c b = Some tb ->
  (c = None /\ In (b, tb) t_main_blocks) \/ (c = Some "f" /\ In (b, tb) t_f_blocks).
Proof.
  unfold tblock_of. destruct c as [f|]; cbn [tcomponent_of].
  - cbn [countdown t_functions lookup]. destruct (String.eqb_spec "f" f) as [<-|_]; [|discriminate]. intros H. right. split; [reflexivity|]. apply lookup_In. exact H.
  - intros H. left. split; [reflexivity|]. apply lookup_In. exact H.
Qed.

Lemma orderable_small instrs : forallb (fun i => mem (c_op i) ["LiteralAssignment"; "PUSH [tag]"; "iszero"; "sub"; "sstore"]) instrs = true ->
  (forall i j a b, In i instrs -> In j instrs -> c_op i = "sstore" -> c_op j = "sstore" -> slot_of i = Some a -> slot_of j = Some b -> ~ computed_from instrs a b) ->
  orderable instrs.
Proof.
  rewrite forallb_forall. intros H S. constructor.
  - intros i Hi Q. specialize (H i Hi). cbn in Q. destruct Q as [Q|[Q|[Q|[]]]]; rewrite <- Q in H; discriminate.
  - intros i j a b Hi Hj Oi Oj. apply S; auto.
    + pose proof (H i Hi) as Q. destruct Oi as [E|[E|[E|[E|[]]]]]; rewrite <- E in Q; try discriminate. auto.
    + pose proof (H j Hj) as Q. destruct Oj as [E|[E|[E|[E|[]]]]]; rewrite <- E in Q; try discriminate. auto.
  - intros m n i j _ Hm _ W. exfalso. apply nth_error_In in Hm. specialize (H i Hm). apply mem_In in H. cbn in H.
    destruct H as [E|[E|[E|[E|[E|[]]]]]]; rewrite <- E in W; discriminate.
Qed.

Ltac each H := cbn in H; repeat (destruct H as [H|H]; [|]); [..|destruct H].

Lemma countdown_compiled c b tb : tblock_of countdown c b = Some tb -> compiled tb.
Proof.
  intros H. apply countdown_blocks in H.
  assert (K : forall tb, In tb (map snd (t_main_blocks ++ t_f_blocks)) -> compiled tb).
  { clear. intros tb H. cbn in H.
    destruct H as [H|[H|[H|[H|[H|[H|[]]]]]]]; subst tb; (constructor; cbn [t_of t_block t_initial t_final t_target t_spec t_ids t_junk t_slots t_held p_instrs p_last p_phis
      b_start b_loop b_body b_next b_exit b_f];
    [ apply ssa_blockb_ok; vm_compute; reflexivity
    | apply orderable_small; [vm_compute; reflexivity|]; intros i j a b Hi Hj Oi Oj Si Sj Q; each Hi; subst i; try discriminate Oi; each Hj; subst j; try discriminate Oj
    | first [reflexivity|eexists; split; reflexivity] | apply layout_nameb_ok; vm_compute; reflexivity
    | intros i Hi Hl; each Hi; subst i; cbn in Hl; intuition discriminate
    | vm_compute; reflexivity | vm_compute; reflexivity | vm_compute; reflexivity | vm_compute; reflexivity
    | vm_compute; discriminate
    | intros r x Hi; first [destruct Hi; fail|destruct Hi as [Hi|[]]; injection Hi as <- <-; split; [apply user_nameb_ok; vm_compute; reflexivity|cbn; intuition discriminate]]
    | intros i Hi; each Hi; subst i; vm_compute; intuition discriminate
    | repeat (constructor; [cbn; intuition discriminate|]); apply NoDup_nil | cbn; repeat (constructor; [cbn; intuition discriminate|]); apply NoDup_nil ]).
    clear - Q. assert (N : forall x y, ~ computed_from [cfg_ins "sstore" ["x"; "k"] []] x y).
    { intros x y R. induction R as [x y (i & Hi & Ho & Hx)|]; [|contradiction]. each Hi. subst i. destruct Ho. }
    exact (N _ _ Q). }
  apply K. rewrite map_app. apply in_app_iff. destruct H as [[_ H]|[_ H]]; [left|right]; apply in_map_iff; exists (b, tb); auto.
Qed.

(** The layouts along the edges, the endings, the tags. *)
Ltac blocks_of H := apply countdown_blocks in H; destruct H as [[-> H]|[-> H]]; cbn in H.
Ltac tag_of_block t := eexists; split; [exists (tag_ins t); split; [simpl; auto|split; [reflexivity|split; [reflexivity|vm_compute; reflexivity]]]|reflexivity].

Lemma countdown_components c k : tcomponent_of countdown c = Some k ->
  (c = None /\ k = t_main countdown) \/ (c = Some "f" /\ k = {| t_params := ["a"; "r"]; t_return := Some "r"; t_start := "f_Block0"; t_blocks := t_f_blocks; t_regs := [160%Z] |}).
Proof.
  destruct c as [f|]; cbn [tcomponent_of]; [|intros [= <-]; auto]. cbn [countdown t_functions lookup].
  destruct (String.eqb_spec "f" f) as [<-|_]; [intros [= <-]; auto|discriminate].
Qed.

Lemma countdown_ending c k b tb : tcomponent_of countdown c = Some k -> lookup b (t_blocks k) = Some tb -> ending countdown countdown_tags k tb.
Proof.
  intros Hk Hb. apply countdown_components in Hk as [[-> ->]|[-> ->]]; apply lookup_In in Hb; cbn in Hb.
  - destruct Hb as [H|[H|[H|[H|[H|[]]]]]]; injection H as <- <-.
    + eapply Ends_fall; reflexivity.
    + eapply Ends_jumpi; try reflexivity; [discriminate|]. tag_of_block "1".
    + eapply Ends_call with (args := ["x"]) (ps := ["a"]); try reflexivity; cbn [p_type t_block t_of b_body]; [simpl; auto|tag_of_block "2"| |tag_of_block "3"| | |].
      * intros v [<-|[]]; discriminate.
      * repeat constructor. intros [].
      * intros x [<-|[]]. apply user_nameb_ok. vm_compute. reflexivity.
      * intros rest v E. cbn in E. injection E as <-. intros [].
    + eapply Ends_jump; try reflexivity. tag_of_block "4".
    + eapply Ends_stop; try reflexivity; [simpl; auto|intros v []].
  - destruct Hb as [H|[]]. injection H as <- <-. eapply Ends_return; try reflexivity. intros v [<-|[]]; discriminate.
Qed.

Lemma countdown_translated : translated countdown countdown_tags [].
Proof.
  constructor.
  - exact countdown_compiled.
  - intros c b tb _ x [].
  - split; [repeat constructor; intros []|]. intros f [<-|[]]. cbn. intuition discriminate.
  - exact countdown_ending.
  - intros c k b tb Hk Hb N. apply countdown_components in Hk as [[-> ->]|[-> ->]]; [destruct (N eq_refl)|]. apply lookup_In in Hb. cbn in Hb.
    destruct Hb as [H|[]]. injection H as <- <-. reflexivity.
  - intros c k b tb b' tb' Hk Hb G Hb'. apply countdown_components in Hk as [[-> ->]|[-> ->]]; apply lookup_In in Hb; cbn in Hb.
    + destruct Hb as [H|[H|[H|[H|[H|[]]]]]]; injection H as <- <-; destruct G as [G|G]; cbn in G; try discriminate G; injection G as <-; cbn in Hb'; injection Hb' as <-.
      * exists ["n"], ["k"]. split; [reflexivity|]. split; [discriminate|]. constructor; [|constructor]. right. split; [discriminate|]. split; [intros []|]. exists 0. split; reflexivity.
      * exists ["x"], []. split; [reflexivity|]. split; [reflexivity|]. constructor; [|constructor]. right. split; [discriminate|]. split; [intros []|]. reflexivity.
      * exists ["x"], []. split; [reflexivity|]. split; [reflexivity|]. constructor; [|constructor]. right. split; [discriminate|]. split; [intros []|]. reflexivity.
      * exists ["y"], []. split; [reflexivity|]. split; [reflexivity|]. constructor; [|constructor]. right. split; [discriminate|]. split; [intros []|]. reflexivity.
      * exists ["y"], []. split; [reflexivity|]. split; [reflexivity|]. constructor; [|constructor]. right. split; [discriminate|]. split; [intros []|]. exists 1. split; reflexivity.
    + destruct Hb as [H|[]]. injection H as <- <-. destruct G as [G|G]; discriminate G.
  - intros c k b tb b' tb' Hk Hb G Hb' r u. apply countdown_components in Hk as [[-> ->]|[-> ->]]; apply lookup_In in Hb; cbn in Hb.
    + destruct Hb as [H|[H|[H|[H|[H|[]]]]]]; injection H as <- <-; destruct G as [G|G]; cbn in G; try discriminate G; injection G as <-; cbn in Hb'; injection Hb' as <-;
        intros [Hr|[]]; injection Hr as <- <-; exists "k"; (split; [split; [left; reflexivity|split; [apply user_nameb_ok; vm_compute; reflexivity|]]
          |right; split; [discriminate|]; split; [intros []|reflexivity]]); intros i k E; cbn in E; try discriminate E; injection E as <-; cbn [c_op cfg_ins]; intros Lf;
        apply lookup_In in Lf as [[= <-]|[]]; cbn; intuition discriminate.
    + destruct Hb as [H|[]]. injection H as <- <-. destruct G as [G|G]; discriminate G.
  - intros c k tb Hk Hb. apply countdown_components in Hk as [[-> ->]|[-> ->]]; cbn in Hb; injection Hb as <-; reflexivity.
  - intros c k b tb Hk Hb. apply countdown_components in Hk as [[-> ->]|[-> ->]]; apply lookup_In in Hb; cbn in Hb.
    + destruct Hb as [H|[H|[H|[H|[H|[]]]]]]; injection H as <- <-; (split; [intros r Hr; cbn in *; tauto|]); (split; [intros r Hr; cbn in *; tauto|]); intros i fk E;
        cbn in E; try discriminate E; injection E as <-; cbn [c_op cfg_ins]; intros Lf; apply lookup_In in Lf as [[= <-]|[]]; intros r Hr; cbn in *; tauto.
    + destruct Hb as [H|[]]. injection H as <- <-. split; [intros r Hr; exact Hr|]. split; [intros r []|]. intros i fk [= <-] Lf. apply lookup_In in Lf as [[=]|[]].
  - intros c k tb Hk Hb. apply countdown_components in Hk as [[-> ->]|[-> ->]]; cbn in Hb; injection Hb as <-.
    + split; [constructor|]. split; [intros p []|]. exists [], []. split; [reflexivity|]. split; [reflexivity|constructor].
    + split; [repeat constructor; cbn; intuition discriminate|]. split; [intros p [<-|[<-|[]]]; apply user_nameb_ok; vm_compute; reflexivity|].
      exists ["a"; "r"], []. split; [reflexivity|]. split; [reflexivity|]. constructor; [|constructor; [|constructor]]; right; (split; [discriminate|]); (split; [intros []|]); reflexivity.
  - intros c k r b tb Hk Er Hb. apply countdown_components in Hk as [[-> ->]|[-> ->]]; [discriminate Er|]. cbn in Er. injection Er as <-. apply lookup_In in Hb. cbn in Hb.
    destruct Hb as [H|[]]. injection H as <- <-. cbn. split; [tauto|]. split; [intros i [<-|[]]; cbn; intuition discriminate|]. split; [intros i [= <-]; cbn; tauto|tauto].
  - split; reflexivity.
Qed.

(** The graphs for the emission. *)
Definition main_graph := fst (emitted_component (t_main countdown)).
Definition f_graph := fst (emitted_component {| t_params := ["a"; "r"]; t_return := Some "r"; t_start := "f_Block0"; t_blocks := t_f_blocks; t_regs := [160%Z] |}).
Lemma main_reach b : reachable main_graph "Block0" b -> In b ["Block0"; "Loop"; "Body"; "Next"; "Exit"].
Proof. apply reach_closed; [left; reflexivity|vm_compute; reflexivity]. Qed.
Lemma f_reach b : reachable f_graph "f_Block0" b -> b = "f_Block0".
Proof. intros R. apply (reach_closed _ _ ["f_Block0"]) in R; [destruct R as [<-|[]]; reflexivity|left; reflexivity|vm_compute; reflexivity]. Qed.
Lemma main_lookup b blk : lookup b main_graph = Some blk -> exists tb, In (b, tb) t_main_blocks /\ blk = emitted_block tb.
Proof. unfold main_graph. rewrite emitted_lookup. destruct (lookup b (t_blocks (t_main countdown))) as [tb|] eqn:E; [|discriminate]. intros [= <-]. exists tb. split; [apply lookup_In; exact E|reflexivity]. Qed.
Lemma main_falls b c : falls main_graph b c -> In (b, c) [("Block0", "Loop"); ("Loop", "Body"); ("Body", "Next")].
Proof.
  intros (k & E & T & F). apply main_lookup in E as (tb & H & ->). cbn in H.
  destruct H as [H|[H|[H|[H|[H|[]]]]]]; injection H as <- <-; cbn in T, F; try discriminate F; injection F as <-; cbn; tauto.
Qed.
Lemma f_falls b c : ~ falls f_graph b c.
Proof. intros (k & E & T & F). apply lookup_In in E. destruct E as [E|[]]. injection E as <- <-. discriminate F. Qed.
Arguments emitted_block : simpl never.

Lemma main_formed : well_formed ["f"] countdown_tags main_graph "Block0".
Proof.
  constructor.
  - split; [discriminate|reflexivity].
  - intros b R. apply main_reach in R. cbn in R.
    repeat (destruct R as [<-|R]; [eexists; do 3 eexists; split; [reflexivity|]; split; [vm_compute; reflexivity|]; split; [vm_compute; reflexivity|reflexivity]|]). destruct R.
  - intros b k R E. apply main_lookup in E as (tb & H & ->). cbn in H.
    destruct H as [H|[H|[H|[H|[H|[]]]]]]; injection H as <- <-; unfold emitted_block; cbn [eb_type eb_jump_to eb_falls_to eb_split t_of t_block p_type p_jump_to p_falls_to p_last
      b_start b_loop b_body b_next b_exit].
    + right; right; left. split; [reflexivity|]. eexists. split; [reflexivity|discriminate].
    + left. split; [reflexivity|]. do 2 eexists. repeat split; discriminate.
    + right; right; right; left. split; [reflexivity|]. split; [eexists; split; [reflexivity|discriminate]|]. eexists. split; [reflexivity|]. left. reflexivity.
    + right; left. split; [reflexivity|]. eexists. split; [reflexivity|discriminate].
    + right; right; right; right; left. split; [reflexivity|]. intros Q. vm_compute in Q. discriminate Q.
  - intros b c R F (k & ids & last & E & Ids & _ & C). apply main_falls in F. apply main_lookup in E as (tb & H & ->). cbn in H.
    destruct H as [H|[H|[H|[H|[H|[]]]]]]; injection H as <- <-; vm_compute in Ids; injection Ids as <-; destruct (lookup _ countdown_tags); discriminate C.
  - intros b b' k c R R' E T J G. apply main_lookup in E as (tb & H & ->). apply main_reach in R'. apply goes_succs in G.
    cbn in H. destruct H as [H|[H|[H|[H|[H|[]]]]]]; injection H as <- <-; cbn in T, J; try discriminate T. injection J as <-. split; [|discriminate].
    cbn in R'. destruct R' as [<-|[<-|[<-|[<-|[<-|[]]]]]]; vm_compute in G; intuition discriminate.
  - intros b b' c R R' F F'. apply main_falls in F. apply main_falls in F'. cbn in F, F'. intuition congruence.
  - intros b R F. apply main_falls in F. cbn in F. intuition congruence.
  - intros b R F. apply main_falls in F. cbn in F. intuition congruence.
  - intros a b c R F F'. apply main_falls in F. apply main_falls in F'. cbn in F, F'.
    assert (D1 : dominates main_graph "Block0" "Loop" "Body").
    { intros A. apply (avoid_closed main_graph "Block0" "Loop" ["Block0"]) in A; [|right; left; reflexivity|vm_compute; reflexivity]. cbn in A. intuition discriminate. }
    assert (D2 : dominates main_graph "Block0" "Body" "Next").
    { intros A. apply (avoid_closed main_graph "Block0" "Body" ["Block0"; "Loop"; "Exit"]) in A; [|right; left; reflexivity|vm_compute; reflexivity]. cbn in A. intuition discriminate. }
    destruct F as [F|[F|[F|[]]]]; injection F as <- <-; destruct F' as [F'|[F'|[F'|[]]]]; try discriminate F'; injection F' as <-; assumption.
Qed.

Lemma f_formed : well_formed ["f"] countdown_tags f_graph "f_Block0".
Proof.
  constructor; try (intros; match goal with F : falls f_graph ?b ?c |- _ => destruct (f_falls b c F) end).
  - split; [discriminate|reflexivity].
  - intros b R. apply f_reach in R as ->. eexists. do 3 eexists. split; [reflexivity|]. split; [vm_compute; reflexivity|]. split; [vm_compute; reflexivity|reflexivity].
  - intros b k R E. apply f_reach in R as ->. injection E as <-. right; right; right; right; right; left. reflexivity.
  - intros b b' k c R R' E T. apply f_reach in R as ->. injection E as <-. discriminate T.
  - intros b _. apply f_falls.
  - intros b _. apply f_falls.
Qed.

Lemma countdown_emittable : emittable countdown countdown_tags 5.
Proof.
  constructor.
  - intros blocks start [H|[H|[]]]; injection H as <- <-.
    + split; [exact main_formed|vm_compute; lia].
    + split; [exact f_formed|vm_compute; lia].
  - repeat constructor; cbn; intuition discriminate.
  - intros x y z Hx Hy. apply lookup_In in Hx. apply lookup_In in Hy. cbn in Hx, Hy. intuition congruence.
  - intros x z H. apply lookup_In in H. cbn in H. destruct H as [H|[H|[H|[H|[]]]]]; injection H as <- <-; lia.
Qed.

Lemma countdown_machine : machine_like small_sem (fun z => z) (fun z => Some z) countdown countdown_tags.
Proof.
  constructor.
  - intros c b tb H. apply small_like. apply countdown_blocks in H. cbn in H.
    destruct H as [[_ [H|[H|[H|[H|[H|[]]]]]]]|[_ [H|[]]]]; injection H as <- <-; vm_compute; reflexivity.
  - intros c b tb i im H El Op. apply countdown_blocks in H. cbn in H.
    destruct H as [[_ [H|[H|[H|[H|[H|[]]]]]]]|[_ [H|[]]]]; injection H as <- <-; cbn in El; try discriminate El; injection El as <-; cbn in Op; try (exfalso; intuition discriminate).
    reflexivity.
  - reflexivity.
  - reflexivity.
  - exists (fun r w => w (Byte r)). constructor.
    + intros r r' Hr Hr'. cbn in Hr, Hr'. intuition lia.
    + intros r Hr. cbn in Hr. intuition lia.
    + reflexivity.
    + intros r v w Hr. cbn. rewrite Z.eqb_refl. split; [reflexivity|]. split; [reflexivity|]. intros l Hl. destruct l as [b|b|b|]; try reflexivity.
      destruct (Z.eqb_spec r b) as [->|_]; [|reflexivity]. destruct Hl. cbn. lia.
    + intros r w w' Hr E. apply E. cbn. lia.
    + split; reflexivity.
Qed.

(** The program has no accesses to memory. *)
Lemma small_no_memory i args l r : small_ins i = true -> register_has r l -> ~ evm_depends (c_op i) args l.
Proof.
  intros S Hl D. unfold small_ins in S. apply andb_true_iff in S as [_ S]. destruct l as [x|x|x|]; try destruct Hl.
  destruct (String.eqb_spec (c_op i) "LiteralAssignment") as [O|_]; [rewrite O in D; destruct D as [D|D]; discriminate D|].
  destruct (String.eqb_spec (c_op i) "PUSH [tag]") as [O|_]; [rewrite O in D; destruct D as [D|D]; discriminate D|].
  destruct (String.eqb_spec (c_op i) "iszero") as [O|_]; [rewrite O in D; destruct D as [D|D]; discriminate D|].
  destruct (String.eqb_spec (c_op i) "sub") as [O|_]; [rewrite O in D; destruct D as [D|D]; discriminate D|].
  destruct (String.eqb_spec (c_op i) "sstore") as [O|_]; [rewrite O in D; destruct D as [D|D]; discriminate D|discriminate].
Qed.
Lemma countdown_spares s : spares small_sem (fun z => z) (registers_of countdown) (source countdown) s.
Proof.
  destruct s as [c from b e w frames|]; [|exact I]. intros blk e1 Hb _ pre i post E l (r & _ & Hl).
  rewrite source_block_of in Hb. destruct (tblock_of countdown c b) as [tb|] eqn:Tb; [|discriminate]. injection Hb as <-.
  assert (S : forallb small_ins (p_instrs (t_block tb)) = true).
  { apply countdown_blocks in Tb. cbn in Tb. destruct Tb as [[_ [H|[H|[H|[H|[H|[]]]]]]]|[_ [H|[]]]]; injection H as <- <-; vm_compute; reflexivity. }
  rewrite forallb_forall in S. apply small_no_memory with r; [|exact Hl]. apply S. rewrite E. apply in_app_iff. simpl; auto.
Qed.

(** All the hypotheses of C41; the program stops after three calls, and so does
    the code, with seven in the slot. *)
Example countdown_meets : exists code,
  translated countdown countdown_tags [] /\ emittable countdown countdown_tags 5 /\
  traverse_cfg 5 countdown_tags (emitted_component (t_main countdown)) (emitted_functions countdown) = Ok code /\
  machine_like small_sem (fun z => z) (fun z => Some z) countdown countdown_tags /\
  (forall s, spares small_sem (fun z => z) (registers_of countdown) (source countdown) s) /\ registers_of countdown = [128; 160; 160]%Z /\
  (exists w', csteps small_sem (fun z => negb (z =? 0)%Z) (fun _ => 0%Z) 15 (source countdown) (Run None None "Block0" (fun _ => 0%Z) (fun _ => 9%Z) [])
     = Some (Halt "STOP" [] w') /\ w' (Slot 0) = 7%Z) /\
  (exists w'', esteps small_sem (fun z => negb (z =? 0)%Z) (fun z => Some z) 90 code (At 0 {| m_stack := [8%Z]; m_world := fun _ => 9%Z; m_regs := fun _ => 0%Z |})
     = Some (Stopped "STOP" [] w'') /\ w'' (Slot 0) = 7%Z).
Proof.
  eexists. split; [exact countdown_translated|]. split; [exact countdown_emittable|]. split; [vm_compute; reflexivity|]. split; [exact countdown_machine|]. split; [exact countdown_spares|]. split; [reflexivity|]. split.
  - eexists. split; [vm_compute; reflexivity|reflexivity].
  - eexists. split; [vm_compute; reflexivity|reflexivity].
Qed.

(** C53, one block: the last block of the program fetches [k] from its register. *)
Definition exit_block : tblock := t_of b_exit ["x"] ["x"] ["x"] ["VGET(k)"; "DUP2"; "SSTORE_0"] true [128%Z] [(128%Z, "k")].
Example exit_lowered : exists code m load,
  compiled exit_block /\ track (t_ids exit_block) (t_slots exit_block) (t_held exit_block) = Some [(128%Z, "k")] /\
  asm_from_ids (s_instrs (t_spec exit_block)) (lowered (t_ids exit_block) (t_slots exit_block)) = Ok code /\ map a_name code = ["PUSH"; "MLOAD"; "DUP2"; "SSTORE"] /\
  evm_like small_sem (fun z => z) (p_instrs (t_block exit_block)) /\ register_ops small_sem load [128%Z] /\
  (forall e w, block_spares small_sem (fun z => z) [128%Z] (p_instrs (t_block exit_block)) e w) /\
  load 128%Z (fun l => match l with Byte _ => 7%Z | _ => 9%Z end) = 7%Z /\
  mrun small_sem code {| m_stack := [5; 6]%Z; m_world := fun l => match l with Byte _ => 7%Z | _ => 9%Z end; m_regs := fun _ => 0%Z |} = Some m /\ m_stack m = [5; 6]%Z /\ m_world m (Slot 5) = 7%Z.
Proof.
  eexists. eexists. exists (fun r w => w (Byte r)). split; [apply (countdown_compiled None "Exit"); reflexivity|]. split; [reflexivity|]. split; [vm_compute; reflexivity|]. split; [reflexivity|].
  split; [apply small_like; vm_compute; reflexivity|]. split.
  { constructor.
    - intros r r' [<-|[]] [<-|[]] N. now destruct N.
    - intros r [<-|[]]. lia.
    - reflexivity.
    - intros r v w Hr. cbn. rewrite Z.eqb_refl. split; [reflexivity|]. split; [reflexivity|]. intros l Hl. destruct l as [b|b|b|]; try reflexivity.
      destruct (Z.eqb_spec r b) as [->|_]; [|reflexivity]. destruct Hl. cbn. lia.
    - intros r w w' Hr E. apply E. cbn. lia.
    - split; reflexivity. }
  split.
  { intros e w pre i post E l (r & _ & Hl). apply small_no_memory with r; [|exact Hl].
    assert (S : forallb small_ins (p_instrs (t_block exit_block)) = true) by (vm_compute; reflexivity). rewrite forallb_forall in S. apply S. rewrite E. apply in_app_iff. simpl; auto. }
  split; [reflexivity|]. split; [vm_compute; reflexivity|]. split; reflexivity.
Qed.
