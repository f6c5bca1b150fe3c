(** C36: inlining, third part: calls as they are read from the JSON file, and
    concrete calls that meet the hypotheses. *)
From Verif Require Import Base UtilModel UtilProps UnifyProps LiveModel CfgModel CfgSpec CfgProps RemoveProps RenameModel RenameProps InlineModel InlineProps InlineWalks.
Open Scope string_scope. Open Scope list_scope.

Lemma nth_error_rev {A} (l : list A) : forall j x, nth_error (rev l) j = Some x -> nth_error l (length l - 1 - j) = Some x.
Proof.
  intros j x H. assert (J : j < length (rev l)) by (apply nth_error_Some; congruence). rewrite rev_length in J.
  destruct l as [|d l0] eqn:E; [simpl in J; lia|]. rewrite <- E in *. 
  rewrite (nth_error_nth' _ d (n := length l - 1 - j)) by lia. rewrite (nth_error_nth' _ d (n := j)) in H by (rewrite rev_length; lia). rewrite rev_nth in H by exact J.
  injection H as <-. f_equal. f_equal. lia.
Qed.

(** The JSON call lists its arguments from the last to the first: the i-th
    argument of the function takes the i-th argument counted from the end. *)
Theorem parsed_call_binds_arguments : forall g id b pos name j_in j_out arguments blocks ret i formal actual,
  name <> "PhiFunction" -> inlinable g id b pos (cfg_instruction name j_in j_out) (parse_function name arguments blocks) ret ->
  nth_error arguments i = Some formal -> nth_error (rev j_in) i = Some actual -> startswith "0x" formal = false ->
  rename_var (formals_to_actuals (cfg_instruction name j_in j_out) (parse_function name arguments blocks)) formal = actual.
Proof.
  intros g id b pos name j_in j_out arguments blocks ret i formal actual NP I HF HA HX. eapply inline_binds_arguments; [exact I| | |exact HX].
  - unfold parse_function. cbn [f_args]. rewrite rev_involutive. exact HF.
  - unfold cfg_instruction. cbn [li_ins]. apply String.eqb_neq in NP. rewrite NP. exact HA.
Qed.
(** The i-th result takes the i-th returned value if the name of the function
    contains an underscore ... *)
Theorem parsed_call_binds_result_partial : forall g id b pos name j_in j_out arguments blocks ret e i result returned,
  contains "_" name = true -> inlinable g id b pos (cfg_instruction name j_in j_out) (parse_function name arguments blocks) ret -> cl_return blocks = [e] ->
  nth_error j_out i = Some result -> nth_error (ret e) i = Some returned -> startswith "0x" result = false ->
  rename_var (results_to_returned (cfg_instruction name j_in j_out) (parse_function name arguments blocks) ret) result
  = rename_var (formals_to_actuals (cfg_instruction name j_in j_out) (parse_function name arguments blocks)) returned.
Proof.
  intros g id b pos name j_in j_out arguments blocks ret e i result returned US I EX HO HR HX. eapply inline_binds_result; eauto.
  unfold cfg_instruction. cbn [li_outs]. rewrite US, rev_involutive. exact HO.
Qed.
(** ... and otherwise the value counted from the end. *)
Theorem parsed_call_swaps_results : forall g id b pos name j_in j_out arguments blocks ret e i result returned,
  contains "_" name = false -> inlinable g id b pos (cfg_instruction name j_in j_out) (parse_function name arguments blocks) ret -> cl_return blocks = [e] ->
  nth_error (rev j_out) i = Some result -> nth_error (ret e) i = Some returned -> startswith "0x" result = false ->
  rename_var (results_to_returned (cfg_instruction name j_in j_out) (parse_function name arguments blocks) ret) result
  = rename_var (formals_to_actuals (cfg_instruction name j_in j_out) (parse_function name arguments blocks)) returned.
Proof.
  intros g id b pos name j_in j_out arguments blocks ret e i result returned US I EX HO HR HX. eapply inline_binds_result; eauto.
  unfold cfg_instruction. cbn [li_outs]. rewrite US. exact HO.
Qed.

(** ** A function with two exits, called in a loop *)
Definition frt (id : string) (returns : list string) (instrs : list linstr) : jblock :=
  {| j_id := id; j_type := "FunctionReturn"; j_targets := []; j_cond := None; j_returns := returns; j_entries := []; j_instrs := instrs |}.
Definition sort_blocks : clist := parsed
  [ cnd "sort_Block0" "f1" "sort_Block1" "sort_Block2" [ins "lt" ["x"; "y"] ["f1"]];
    frt "sort_Block1" ["x"; "y"] [];
    frt "sort_Block2" ["y"; "z"] [ins "add" ["x"; "0x01"] ["z"]] ].
Definition sort_call : linstr := cfg_instruction "sort_2" ["n"; "i"] ["lo"; "hi"].
Definition sort_function : cfun := parse_function "sort_2" ["x"; "y"] sort_blocks.
Definition caller : clist := parsed
  [ jmp "E" "H" [ins "calldataload" ["0x00"] ["n"]];
    cnd "H" "c" "X" "B" [ins "PhiFunction" ["0x00"; "j"] ["i"]; ins "lt" ["i"; "n"] ["c"]];
    jmp "B" "H" [ins "mload" ["0x40"] ["m"]; sort_call; ins "sstore" ["lo"; "hi"] []; ins "add" ["0x01"; "i"] ["j"]];
    fin "X" [ins "stop" [] []] ].
Definition sort_ret (e : string) : list string := if String.eqb e "sort_Block1" then ["x"; "y"] else ["y"; "z"].
Definition caller_B : cblock := match lookup "B" (cl_blocks caller) with Some b => b | None => new_block [] "" end.

Ltac not_in := simpl; unfold not; intros; repeat match goal with H : _ \/ _ |- _ => destruct H as [H|H] end; try discriminate; try contradiction.
Lemma sort_inlinable : inlinable caller "B" caller_B 1 sort_call sort_function sort_ret.
Proof.
  constructor.
  - apply consistentb_sound. vm_compute. reflexivity.
  - apply consistentb_sound. vm_compute. reflexivity.
  - constructor; vm_compute; try reflexivity; [not_in|repeat constructor; not_in|not_in|not_in].
  - vm_compute. reflexivity.
  - vm_compute. reflexivity.
  - reflexivity.
  - vm_compute. repeat constructor; not_in.
  - intros k v H. vm_compute in H. not_in; injection H as <- <-; discriminate.
  - intros k H. vm_compute in H. repeat match goal with H : _ \/ _ |- _ => destruct H as [H|H] end; try contradiction; subst k; (split; [vm_compute; not_in|split; discriminate]).
  - vm_compute. repeat constructor; not_in.
  - intros e H. vm_compute in H. destruct H as [H|[H|[]]]; subst e; eexists.
    + exists []. split; [vm_compute; reflexivity|]. split; [eexists; split; [vm_compute; reflexivity|split; vm_compute; reflexivity]|]. repeat split.
    + exists [ins "add" ["x"; "0x01"] ["z"]]. split; [vm_compute; reflexivity|]. split; [eexists; split; [vm_compute; reflexivity|split; vm_compute; reflexivity]|]. repeat split.
  - vm_compute. repeat constructor; not_in.
  - intros e H. vm_compute in H. discriminate.
Qed.
Lemma sort_returns : returns_at_exits sort_blocks.
Proof. intros x bf. apply (keys_cases sort_blocks (fun x bf => length (filter is_functionReturn (cb_instrs bf)) <= if mem x (cl_return sort_blocks) then 1 else 0)). vm_compute. repeat constructor. Qed.
(** The theorem applies, and this is what the loop body becomes. *)
Example sort_inlined : exists g', inline_function 1 "B" caller sort_function = Ok g' /\ consistent g'
  /\ from_start g' ["E"; "H"; "Bf"; "sort_Block0"; "sort_Block2"; "Bs"; "H"; "X"]
  /\ option_map cb_instrs (lookup "sort_Block0" (cl_blocks g')) = Some [ins "lt" ["i"; "n"] ["f1"]]
  /\ option_map cb_instrs (lookup "sort_Block2" (cl_blocks g')) = Some [ins "add" ["i"; "0x01"] ["z"]]
  /\ option_map cb_instrs (lookup "Bs" (cl_blocks g')) = Some [ins "PhiFunction" ["n"; "z"] ["hi"]; ins "PhiFunction" ["i"; "n"] ["lo"]; ins "sstore" ["lo"; "hi"] []; ins "add" ["0x01"; "i"] ["j"]]
  /\ exists p t phis, inlined caller "B" caller_B 1 sort_function (formals_to_actuals sort_call sort_function) (results_to_returned sort_call sort_function sort_ret) phis
       p ["E"; "H"; "Bf"; "sort_Block0"; "sort_Block2"; "Bs"; "H"; "X"] t /\ from_start caller p.
Proof.
  destruct (inline_function_executions _ _ _ _ _ _ _ sort_inlinable sort_returns) as (g' & phis & second & E & C & _ & _ & _ & _ & _ & FS & _).
  exists g'. split; [exact E|]. split; [exact C|].
  assert (W : from_start g' ["E"; "H"; "Bf"; "sort_Block0"; "sort_Block2"; "Bs"; "H"; "X"]).
  { clear FS C. vm_compute in E. injection E as <-. split; [|reflexivity]. simpl.
    repeat (split; [eexists; split; [reflexivity|simpl; auto]|]). auto 12. }
  split; [exact W|]. split; [clear FS C W; vm_compute in E; injection E as <-; reflexivity|]. split; [clear FS C W; vm_compute in E; injection E as <-; reflexivity|].
  split; [clear FS C W; vm_compute in E; injection E as <-; reflexivity|]. destruct (FS _ W) as (p & t & HI & HP). exists p, t, phis. auto.
Qed.

(** ** Results of a function whose name has no underscore *)
Definition two_blocks : clist := parsed [ frt "f_Block0" ["u"; "v"] [ins "mload" ["x"] ["u"]; ins "sload" ["x"] ["v"]] ].
Definition two_call (name : string) : linstr := cfg_instruction name ["a"] ["r"; "s"].
Definition two_function (name : string) : cfun := parse_function name ["x"] two_blocks.
Definition two_caller (name : string) : clist := parsed [ fin "M" [ins "calldataload" ["0x00"] ["a"]; two_call name; ins "sstore" ["r"; "s"] []] ].
Definition two_ret (e : string) : list string := ["u"; "v"].
Definition two_M (name : string) : cblock := match lookup "M" (cl_blocks (two_caller name)) with Some b => b | None => new_block [] "" end.
Ltac two_tac :=
  constructor;
  [ apply consistentb_sound; vm_compute; reflexivity
  | apply consistentb_sound; vm_compute; reflexivity
  | constructor; vm_compute; try reflexivity; [not_in|constructor|not_in|not_in]
  | vm_compute; reflexivity
  | vm_compute; reflexivity
  | reflexivity
  | vm_compute; repeat constructor; not_in
  | intros k v H; vm_compute in H; destruct H as [H|[]]; injection H as <- <-; discriminate
  | intros k H; vm_compute in H; destruct H as [H|[]]; subst k; (split; [vm_compute; not_in|split; discriminate])
  | vm_compute; repeat constructor; not_in
  | intros e H; vm_compute in H; destruct H as [H|[]]; subst e; eexists;
    exists [ins "mload" ["x"] ["u"]; ins "sload" ["x"] ["v"]]; split; [vm_compute; reflexivity|]; split; [eexists; split; [vm_compute; reflexivity|split; vm_compute; reflexivity]|]; repeat split
  | vm_compute; repeat constructor; not_in
  | intros e H; vm_compute in H; injection H as <-; intros k v H; vm_compute in H; destruct H as [H|[H|[]]]; injection H as <- <-; discriminate ].
Example two_results_partial : inlinable (two_caller "f_1") "M" (two_M "f_1") 1 (two_call "f_1") (two_function "f_1") two_ret.
Proof. two_tac. Qed.
Example two_results_bound : rename_var (results_to_returned (two_call "f_1") (two_function "f_1") two_ret) "r" = "u"
  /\ rename_var (results_to_returned (two_call "f_1") (two_function "f_1") two_ret) "s" = "v".
Proof.
  split.
  - apply (parsed_call_binds_result_partial _ _ _ _ "f_1" ["a"] ["r"; "s"] ["x"] two_blocks two_ret "f_Block0" 0 "r" "u" eq_refl two_results_partial); reflexivity.
  - apply (parsed_call_binds_result_partial _ _ _ _ "f_1" ["a"] ["r"; "s"] ["x"] two_blocks two_ret "f_Block0" 1 "s" "v" eq_refl two_results_partial); reflexivity.
Qed.
(** The same program with the function called "f": the two results are swapped. *)
Theorem parsed_call_binds_result_refuted :
  inlinable (two_caller "f") "M" (two_M "f") 1 (two_call "f") (two_function "f") two_ret
  /\ (rename_var (results_to_returned (two_call "f") (two_function "f") two_ret) "r" = "v"
      /\ rename_var (results_to_returned (two_call "f") (two_function "f") two_ret) "s" = "u")
  /\ exists g', inline_function 1 "M" (two_caller "f") (two_function "f") = Ok g' /\ option_map cb_instrs (lookup "Ms" (cl_blocks g')) = Some [ins "sstore" ["v"; "u"] []].
Proof. split; [two_tac|]. split; [vm_compute; auto|]. eexists. split; vm_compute; reflexivity. Qed.

(** A call whose argument has the name of the formal argument is rejected
    (the names have not been made distinct). *)
Theorem inline_same_name_refuted : exists f, f_args f = ["x"] /\ inline_function 1 "M"
  (parsed [ fin "M" [ins "calldataload" ["0x00"] ["x"]; ins "f_1" ["x"] ["r"; "s"]; ins "sstore" ["r"; "s"] []] ]) f = Raise AssertionError.
Proof. exists (two_function "f_1"). split; vm_compute; reflexivity. Qed.
(** A function without exits: nothing comes to the code after the call, which
    still lists itself as a predecessor of its successors. *)
Theorem inline_no_exit_unreachable : exists g', inline_function 0 "M"
   (parsed [ jmp "M" "X" [ins "fail_1" [] []]; fin "X" [] ]) (parse_function "fail_1" [] (parsed [ fin "fail_Block0" [ins "revert" ["0x00"; "0x00"] []] ])) = Ok g'
  /\ option_map cb_comes_from (lookup "Ms" (cl_blocks g')) = Some [] /\ option_map cb_comes_from (lookup "X" (cl_blocks g')) = Some ["Ms"]
  /\ (forall x, ~ edge g' x "Ms").
Proof.
  eexists. split; [vm_compute; reflexivity|]. split; [vm_compute; reflexivity|]. split; [vm_compute; reflexivity|].
  intros x (blk & L & H). revert L H. apply (keys_cases _ (fun _ blk => (cb_jump_to blk = Some "Ms" \/ cb_falls_to blk = Some "Ms") -> False)). repeat first [apply Forall_nil | apply Forall_cons]; simpl; intros [H|H]; discriminate.
Qed.

Print Assumptions inline_function_executions.
Print Assumptions inline_binds_arguments.
Print Assumptions inline_binds_result.
Print Assumptions inline_binds_results.
Print Assumptions parsed_call_binds_arguments.
Print Assumptions parsed_call_binds_result_partial.
Print Assumptions parsed_call_binds_result_refuted.
