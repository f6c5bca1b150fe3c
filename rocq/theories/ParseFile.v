(** C58: what the parser builds does what the file says. *)
From Verif Require Import Base Lexical SymExecModel AsmModel DepsModel SpecModel UtilModel UtilProps UnifyProps LiveModel CfgModel CfgProps JumpModel ObjSem ParseModel ParseSpec ParseProofs ParseTranslate ParseComponent ParseSim.
Notation lookup := UtilModel.lookup.
Open Scope string_scope. Open Scope list_scope.

Lemma unknown_unreached o f x : lookup f (jo_functions o) = None -> ~ jreached o (Some f) x.
Proof. intros L R. induction R as [s E|]; [|assumption]. cbn [jentry] in E. rewrite L in E. discriminate. Qed.

(** One object. *)
Theorem parsed_does_the_same_partial : forall builtin keys name o, jobject_ok builtin keys o ->
  exists ob, parse_object builtin keys name o = Ok ob /\ read_as builtin keys name o ob.
Proof.
  intros builtin keys name o H. destruct (object_parsed builtin keys name o H) as (ob & P & Fa & Fu & Nf). exists ob. split; [exact P|].
  exists (index_for keys name o). split.
  - intros B [f|].
    + destruct (lookup f (jo_functions o)) as [k|] eqn:L.
      * apply (component_numbered builtin keys (map fst (jo_functions o)) name f o (Some f)); [|exact B]. apply (known_ok builtin keys o H). exists k. exact L.
      * constructor; intros x; [intros (b & blk & i & r & R & _); destruct (unknown_unreached _ _ _ L R)|intros y (b & blk & i & r & R & _); destruct (unknown_unreached _ _ _ L R)].
    + apply (component_numbered builtin keys (map fst (jo_functions o)) name name o None); [|exact B]. apply (known_ok builtin keys o H None I).
  - intros V W D M A. exact (behaviours_same builtin keys name o H ob Fa Fu Nf D M A).
Qed.

(** A whole file. *)
Fixpoint jcfg_rect' (P : jcfg -> Prop) (H : forall os, (forall name o c, In (name, o, Some c) os -> P c) -> P (JCfg os)) (c : jcfg) : P c :=
  match c with
  | JCfg os => H os ((fix go (os : list (string * jobject * option jcfg)) : forall name o c, In (name, o, Some c) os -> P c :=
      match os with
      | [] => fun _ _ _ F => match F with end
      | (n, o, s) :: os' => fun name o' c I =>
          match I with
          | or_introl E => match s as s0 return (n, o, s0) = (name, o', Some c) -> P c with
                           | Some c0 => fun E => eq_ind c0 P (jcfg_rect' P H c0) c (match E in _ = y return match snd y with Some c1 => c0 = c1 | None => True end with eq_refl => eq_refl end)
                           | None => fun E => match E in _ = y return match snd y with Some _ => P c | None => True end with eq_refl => Coq.Init.Logic.I end
                           end E
          | or_intror I' => go os' name o' c I'
          end
      end) os)
  end.
Definition parse_objects (builtin : bool) := fix go (os : list (string * jobject * option jcfg)) : result (list (string * cobject * option pcfg)) :=
  match os with
  | [] => Ok []
  | (name, o, sub) :: os' =>
      do sub' <- match sub with None => Ok None | Some c' => do p <- parse_cfg builtin c'; Ok (Some p) end;
      do ob <- parse_object builtin (match sub' with Some p => object_keys p | None => [] end) name o;
      do rest <- go os';
      Ok ((name, ob, sub') :: rest)
  end.
Lemma file_keys builtin c p : file_read builtin c p -> object_keys p = sub_numbers (Some c).
Proof.
  intros [os ps L H]. cbn [object_keys sub_numbers]. rewrite L. f_equal. clear - L H. revert ps L H. induction os as [|[[name o] sub] os IH]; intros [|q ps] L H; try discriminate; [reflexivity|].
  cbn [map]. f_equal.
  - destruct (H 0 name o sub eq_refl) as (ob & sub' & E & _). injection E as ->. reflexivity.
  - apply IH; [cbn in L; lia|]. intros n name' o' sub'' E. exact (H (S n) name' o' sub'' E).
Qed.
Theorem file_does_the_same_partial : forall builtin c, file_ok builtin c -> exists p, parse_cfg builtin c = Ok p /\ file_read builtin c p.
Proof.
  intros builtin c. induction c as [os IH] using jcfg_rect'. intros H. inversion H as [os' NE Each]; subst.
  assert (G : exists ps, parse_objects builtin os = Ok ps /\ length os = length ps /\ forall n name o sub, nth_error os n = Some (name, o, sub) ->
    exists ob sub', nth_error ps n = Some (name, ob, sub') /\ read_as builtin (sub_numbers sub) name o ob
      /\ ((sub = None /\ sub' = None) \/ exists c p, sub = Some c /\ sub' = Some p /\ file_read builtin c p)).
  { clear NE H. induction os as [|[[name o] sub] os IHos]; [exists []; split; [reflexivity|]; split; [reflexivity|]; intros [|n] ? ? ? E; discriminate|].
    destruct IHos as (ps & R & L & N); [intros n1 o1 c1 I1; exact (IH n1 o1 c1 (or_intror I1))|intros n1 o1 s1 I1; exact (Each n1 o1 s1 (or_intror I1))|].
    destruct (Each name o sub (or_introl eq_refl)) as [Oo Os].
    assert (S1 : exists sub', match sub with None => Ok None | Some c' => do p <- parse_cfg builtin c'; Ok (Some p) end = Ok sub'
      /\ match sub' with Some p => object_keys p | None => [] end = sub_numbers sub /\ ((sub = None /\ sub' = None) \/ exists c p, sub = Some c /\ sub' = Some p /\ file_read builtin c p)).
    { destruct sub as [c|]; [|exists None; split; [reflexivity|]; split; [reflexivity|]; left; split; reflexivity].
      destruct (IH name o c (or_introl eq_refl) (Os c eq_refl)) as (p & P & F). exists (Some p). rewrite P. split; [reflexivity|]. split; [eapply file_keys; exact F|]. right. exists c, p. auto. }
    destruct S1 as (sub' & E1 & E2 & E3). destruct (parsed_does_the_same_partial builtin (sub_numbers sub) name o Oo) as (ob & P & Rd).
    exists ((name, ob, sub') :: ps). split; [cbn [parse_objects]; rewrite E1; cbn [bind]; rewrite E2, P; cbn [bind]; rewrite R; reflexivity|]. split; [cbn; lia|].
    intros [|n] name' o' sub'' E; cbn [nth_error] in E |- *; [|apply N; exact E]. injection E as <- <- <-. exists ob, sub'. auto. }
  destruct G as (ps & R & L & N). exists (PCfg ps). split; [|constructor; assumption]. cbn [parse_cfg].
  assert (As : py_assert (negb (Nat.eqb (length os) 0)) = Ok tt) by (destruct os; [contradiction|reflexivity]). rewrite As. cbn [bind].
  unfold parse_objects in R. rewrite R. reflexivity.
Qed.

(** ** A file *)
Definition ins (outs : list string) (op : string) (args : list string) : jinstr := {| ji_in := Some (rev args); ji_op := Some op; ji_out := Some outs; ji_lits := None |}.
Definition lit (outs : list string) (op : string) (l : list string) : jinstr := {| ji_in := Some []; ji_op := Some op; ji_out := Some outs; ji_lits := Some l |}.
Definition phi (out : string) (args : list string) : jinstr := {| ji_in := Some args; ji_op := Some "PhiFunction"; ji_out := Some [out]; ji_lits := None |}.
Definition blk (id : string) (is : list jinstr) (entries : list string) (x : jexit) : jsblock :=
  {| js_id := Some id; js_instrs := Some is; js_exit := Some x; js_type := "BuiltinCall"; js_entries := entries |}.
Definition jump t := {| jx_type := Some "Jump"; jx_targets := [t]; jx_cond := None; jx_returns := None |}.
Definition cond f t y := {| jx_type := Some "ConditionalJump"; jx_targets := [f; t]; jx_cond := Some y; jx_returns := None |}.
Definition ends (t : string) := {| jx_type := Some t; jx_targets := []; jx_cond := None; jx_returns := None |}.
Definition returns (vs : list string) := {| jx_type := Some "FunctionReturn"; jx_targets := []; jx_cond := None; jx_returns := Some vs |}.
(** The deployed code: a loop with a phi function and a call with two results. *)
Definition deployed : jobject := {| jo_blocks := Some
  [blk "Block0" [ins ["a"] "calldataload" ["0x00"]] [] (jump "Block1");
   blk "Block1" [phi "i" ["a"; "j"]; ins ["z"] "iszero" ["i"]] ["Block0"; "Block2"] (cond "Block2" "Block3" "z");
   blk "Block2" [ins ["q"; "j"] "half_1" ["i"; "0x02"]] ["Block1"] (jump "Block1");
   blk "Block3" [ins [] "return" ["0x00"; "a"]] ["Block1"] (ends "Terminated")];
  jo_functions := [("half_1", {| jf_args := ["x"; "y"]; jf_entry := "Block0"; jf_blocks :=
     [blk "Block0" [ins ["r"] "mod" ["x"; "y"]; ins ["d"] "div" ["x"; "y"]] [] (returns ["r"; "d"])] |})] |}.
(** The creation code: sizes and offsets of the sub-object, of the object itself
    and of two other names. *)
Definition creation : jobject := {| jo_blocks := Some
  [blk "Block0" [lit ["g"] "memoryguard" ["0x80"]; lit ["s"] "datasize" ["C_deployed"]; lit ["p"] "dataoffset" ["C_deployed"]; ins [] "datacopy" ["g"; "p"; "s"];
     lit ["t"] "datasize" ["C"]; lit ["u"] "dataoffset" ["data1"]; lit ["v"] "datasize" ["data2"]; ins [] "return" ["g"; "s"]] [] (ends "Terminated")];
  jo_functions := [] |}.
Definition example_file : jcfg := JCfg [("C", creation, Some (JCfg [("C_deployed", deployed, None)]))].

Ltac settled := first
  [ reflexivity | discriminate | lia
  | match goal with |- incl _ _ => intros ? ?; cbn in *; tauto end
  | match goal with |- In _ _ => cbn; tauto end
  | match goal with |- ~ In _ _ => let Q := fresh in intros Q; cbn in Q; repeat (destruct Q as [Q|Q]; [discriminate Q|]); exact Q end ].

Lemma deployed_ok : jobject_ok false [] deployed.
Proof.
  assert (B : forall ids id phis rest entries x, Forall (fun i => operation i = "PhiFunction" /\ length (results i) = 1) phis -> Forall (fun i => operation i <> "PhiFunction") rest ->
    Forall (jinstr_ok false [] ["half_1"]) (phis ++ rest) -> jexit_ok ids x -> jblock_ok false [] ["half_1"] ids (blk id (phis ++ rest) entries x)).
  { intros ids id phis rest entries x H1 H2 H3 H4. constructor; [discriminate|discriminate|exists phis, rest; auto|exists x; auto]. }
  assert (In_ : forall op outs args, ~ In op ["functionReturn"; "PUSH [tag]"; "LiteralAssignment"; "linkersymbol"; "memoryguard"; "datasize"; "dataoffset"] -> startswith "verbatim" op = false ->
    length outs <= 1 \/ (In op ["half_1"] /\ contains "_" op = true) -> jinstr_ok false [] ["half_1"] (ins outs op args)).
  { intros op outs args N V R. cbn in N. constructor; cbn; [repeat split; discriminate|repeat split; [intros ->; tauto|intros ->; tauto|exact V]|intros ->; tauto|exact R|].
    intros _. constructor; cbn; [intros ->; tauto|intros ->; tauto|intros [<-|[<-|[]]]; tauto]. }
  constructor.
  - split; [discriminate|]. constructor.
    + repeat (apply Forall_cons); [..|apply Forall_nil].
      * apply (B _ _ [] [_]); [constructor|repeat constructor; discriminate|repeat constructor; apply In_; settled || (left; cbn; lia)|eapply xo_jump; [reflexivity..|settled]].
      * apply (B _ _ [_] [_]); [repeat constructor|repeat constructor; discriminate| |eapply xo_cond; [reflexivity..|settled]].
        constructor; [|repeat constructor; apply In_; settled || (left; cbn; lia)].
        constructor; cbn; [repeat split; discriminate|repeat split; discriminate|discriminate|left; lia|]. intros _. constructor; cbn; [discriminate|discriminate|intros [Q|[Q|[]]]; discriminate].
      * apply (B _ _ [] [_]); [constructor|repeat constructor; discriminate|repeat constructor; apply In_; settled || (right; split; [left; reflexivity|reflexivity])|eapply xo_jump; [reflexivity..|settled]].
      * apply (B _ _ [] [_]); [constructor|repeat constructor; discriminate|repeat constructor; apply In_; settled || (left; cbn; lia)|eapply xo_end; [reflexivity|cbn; tauto|settled]].
    + cbn. repeat constructor; settled.
    + exists "Block0". repeat split.
  - intros f k [E|[]]. injection E as <- <-. constructor; cbn [jf_blocks jf_entry].
    + repeat (apply Forall_cons); [..|apply Forall_nil].
      apply (B _ _ [] [_; _]); [constructor|repeat constructor; discriminate|repeat constructor; apply In_; settled || (left; cbn; lia)|eapply xo_return; [reflexivity..|settled]].
    + cbn. repeat constructor; settled.
    + exists "Block0". repeat split.
  - split; [repeat constructor; settled|]. intros f [<-|[]]. settled.
Qed.
Lemma creation_ok : jobject_ok false [("C_deployed", 0)] creation.
Proof.
  constructor; [|intros f k []|split; [constructor|intros f []]]. split; [discriminate|]. constructor.
  - repeat (apply Forall_cons); [|apply Forall_nil]. constructor; [discriminate|discriminate| |eexists; split; [reflexivity|]; eapply xo_end; [reflexivity|cbn; tauto|settled]].
    exists []. eexists. split; [reflexivity|]. split; [constructor|]. split; [repeat constructor; discriminate|]. cbn [app].
    repeat (apply Forall_cons); [..|apply Forall_nil]; (constructor; cbn; [repeat split; discriminate|repeat split; discriminate|discriminate|left; lia|]); intros _; constructor; cbn;
      try discriminate; try (intros [Q|[Q|[]]]; discriminate).
    + intros _. eexists. split; [reflexivity|]. repeat constructor. vm_compute. discriminate.
    + intros _. do 2 eexists. split; [reflexivity|]. left. discriminate.
    + intros _. do 2 eexists. split; [reflexivity|]. left. discriminate.
    + intros _. do 2 eexists. split; [reflexivity|]. right. discriminate.
    + intros _. do 2 eexists. split; [reflexivity|]. right. discriminate.
    + intros _. do 2 eexists. split; [reflexivity|]. right. discriminate.
  - cbn. repeat constructor; settled.
  - exists "Block0". repeat split.
Qed.
Example example_file_ok : file_ok false example_file.
Proof.
  constructor; [discriminate|]. intros name o sub [E|[]]. injection E as <- <- <-. split; [exact creation_ok|]. intros c E. injection E as <-.
  constructor; [discriminate|]. intros name o sub [E|[]]. injection E as <- <- <-. split; [exact deployed_ok|discriminate].
Qed.
(** What it is read as: the instructions of the creation code. *)
Example example_file_read : exists p ob, parse_cfg false example_file = Ok p /\ p = PCfg [("C", ob, match p with PCfg [(_, _, s)] => s | _ => None end)]
  /\ option_map (fun b => map (fun i => (li_op i, li_ins i, li_lits i)) (cb_instrs b)) (lookup "C_Block0" (cl_blocks (ob_main ob)))
   = Some [("push", [], Some ["0x80"]); ("push #[$]", [], Some [fmt_064X 0]); ("push [$]", [], Some [fmt_064X 0]); ("codecopy", ["g"; "p"; "s"], None);
           ("pushsize", [], Some [fmt_064X (2 ^ 64 - 1)]); ("push [$]", [], Some [fmt_064X (2 ^ 64 - 2)]); ("push #[$]", [], Some [fmt_064X (2 ^ 64 - 3)]); ("return", ["g"; "s"], None)].
Proof. do 2 eexists. split; [vm_compute; reflexivity|]. split; vm_compute; reflexivity. Qed.
(** A meaning: words are numbers. *)
Definition arithmetic : jwords Z unit :=
  {| jw_do := fun _ op l args w => (match op, args with
       | "calldataload", _ => [13%Z] | "iszero", [x] => [if (x =? 0)%Z then 1%Z else 0%Z] | "mod", [x; y] => [(x mod y)%Z] | "div", [x; y] => [(x / y)%Z] | _, _ => [] end, w);
     jw_word := fun x => match py_int16 x with Some z => z | None => 0%Z end; jw_truth := fun v => negb (v =? 0)%Z |}.
Example deployed_runs : jstops arithmetic deployed tt "RETURN" [0%Z; 13%Z] tt.
Proof. eexists _, 33. split; [reflexivity|]. vm_compute. reflexivity. Qed.
Print Assumptions parsed_does_the_same_partial.
Print Assumptions file_does_the_same_partial.

(** ** Files that are read wrongly, or not at all *)
(** Words are texts: [0x01] stands for itself. *)
Definition texts : jwords string unit := {| jw_do := fun _ _ _ _ w => ([], w); jw_word := fun x => x; jw_truth := fun v => String.eqb v "0x01" |}.
Definition texts' : words string unit := {| o_do := fun _ _ w => ([], w); o_word := fun x => x; o_truth := fun v => String.eqb v "0x01" |}.
Lemma texts_agree builtin keys self index : agrees builtin keys self index texts texts'.
Proof. constructor; reflexivity. Qed.
Definition two_results (f : string) : jobject := {| jo_blocks := Some [blk "Block0" [ins ["a"; "b"] f []; ins [] "return" ["a"; "b"]] [] (ends "Terminated")];
  jo_functions := [(f, {| jf_args := []; jf_entry := "Block0"; jf_blocks := [blk "Block0" [] [] (returns ["0x01"; "0x02"])] |})] |}.
(** A function of the user with two results and no underscore in its name: the
    results arrive in the wrong variables.  The same file with another name for
    the function is read correctly. *)
Theorem two_results_swapped_refuted : exists ob ob', parse_object true [] "C" (two_results "pair") = Ok ob /\ parse_object true [] "C" (two_results "pair_1") = Ok ob'
  /\ jstops texts (two_results "pair") tt "RETURN" ["0x01"; "0x02"] tt /\ stops texts' ob tt "RETURN" ["0x02"; "0x01"] tt
  /\ jstops texts (two_results "pair_1") tt "RETURN" ["0x01"; "0x02"] tt /\ stops texts' ob' tt "RETURN" ["0x01"; "0x02"] tt.
Proof.
  do 2 eexists. split; [vm_compute; reflexivity|]. split; [vm_compute; reflexivity|].
  split; [eexists _, 3; split; [reflexivity|vm_compute; reflexivity]|]. split; [eexists _, 3; split; [reflexivity|vm_compute; reflexivity]|].
  split; [eexists _, 3; split; [reflexivity|vm_compute; reflexivity]|]. eexists _, 3; split; [reflexivity|vm_compute; reflexivity].
Qed.
(** The entry that the file gives for a function is not used: the first block is
    the start. *)
Definition other_entry : jobject := {| jo_blocks := Some [blk "Block0" [ins ["a"] "f" []; ins [] "return" ["a"]] [] (ends "Terminated")];
  jo_functions := [("f", {| jf_args := []; jf_entry := "Block1"; jf_blocks := [blk "Block0" [] [] (returns ["0x00"]); blk "Block1" [] [] (returns ["0x01"])] |})] |}.
Theorem entry_ignored_refuted : exists ob, parse_object true [] "C" other_entry = Ok ob
  /\ jstops texts other_entry tt "RETURN" ["0x01"] tt /\ stops texts' ob tt "RETURN" ["0x00"] tt.
Proof.
  eexists. split; [vm_compute; reflexivity|]. split; (eexists _, 3; split; [reflexivity|vm_compute; reflexivity]).
Qed.
(** Whatever the rest of the file, an operation whose name starts with "verbatim"
    makes the parser raise an exception. *)
Theorem verbatim_raises_refuted : forall i op, ji_op i = Some op -> startswith "verbatim" op = true -> exists e, parse_instruction i = Raise e.
Proof.
  intros i op E V. unfold parse_instruction. destruct (ji_in i) as [l|]; [|eexists; reflexivity]. rewrite E. cbn [of_option bind]. destruct (ji_out i) as [l'|]; [|eexists; reflexivity]. cbn [of_option bind].
  destruct (if String.eqb op "LiteralAssignment" then _ else _); cbn [bind]; [|eexists; reflexivity]. rewrite V. eexists. reflexivity.
Qed.
Example verbatim_example : parse_object true [] "C" {| jo_blocks := Some [blk "Block0" [ins [] "verbatim_0i_0o" []] [] (ends "MainExit")]; jo_functions := [] |} = Raise OtherError.
Proof. vm_compute. reflexivity. Qed.
(** Without the option for built-in functions, a component none of whose blocks is called
    Block0 makes the parser raise. *)
Definition start_elsewhere : jobject := {| jo_blocks := Some [blk "Block1" [ins [] "stop" []] [] (ends "Terminated")]; jo_functions := [] |}.
Theorem start_named_otherwise_refuted : parse_object false [] "C" start_elsewhere = Raise OtherError
  /\ jstops texts start_elsewhere tt "STOP" [] tt /\ exists ob, parse_object true [] "C" start_elsewhere = Ok ob.
Proof. split; [vm_compute; reflexivity|]. split; [eexists _, 1; split; [reflexivity|vm_compute; reflexivity]|]. eexists. vm_compute. reflexivity. Qed.
Print Assumptions two_results_swapped_refuted.
Print Assumptions entry_ignored_refuted.
Print Assumptions verbatim_raises_refuted.
Print Assumptions start_named_otherwise_refuted.
