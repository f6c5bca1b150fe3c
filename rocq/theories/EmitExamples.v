(** Graphs that meet the hypotheses of the emission theorem, and graphs outside
    them for which the emitted code is wrong. *)
From Verif Require Import Base LexicalProofs SymExecModel AsmModel UtilModel LiveModel CfgModel EmitModel EmitSpec EmitProps.
Open Scope string_scope. Open Scope list_scope.

(** A block whose code is one id, [name], and a last instruction. *)
Definition ins (op : string) : cinstr := {| ci_op := op; ci_ins := []; ci_outs := []; ci_literals := None |}.
Definition blk (name type : string) (j f : option string) (split : option string) : eblock :=
  {| eb_spec := []; eb_ids := [name]; eb_type := type; eb_jump_to := j; eb_falls_to := f; eb_split := option_map ins split;
     eb_instrs := match split with Some op => [ins op] | None => [] end |}.

(** A closed set of blocks contains the reachable ones. *)
Definition succs (blocks : list (string * eblock)) (b : string) : list string :=
  match lookup b blocks with
  | Some k => (if mem (eb_type k) ["conditional"; "unconditional"] then opt_list (eb_jump_to k) else []) ++
              (if mem (eb_type k) ["conditional"; "falls_to"; "sub_block"] then opt_list (eb_falls_to k) else [])
  | None => []
  end.
Lemma goes_succs blocks b c : goes blocks b c -> In c (succs blocks b).
Proof.
  intros [(k & E & T & J)|(k & E & T & J)]; unfold succs; rewrite E, J; apply in_or_app.
  - right. rewrite (proj2 (mem_In _ _) T). left. reflexivity.
  - left. rewrite (proj2 (mem_In _ _) T). left. reflexivity.
Qed.
Lemma reach_closed blocks start l : In start l -> forallb (fun b => forallb (fun c => mem c l) (succs blocks b)) l = true ->
  forall b, reachable blocks start b -> In b l.
Proof.
  intros S0 C b R. rewrite forallb_forall in C. induction R as [|b c R IH G]; [exact S0|].
  specialize (C b IH). rewrite forallb_forall in C. apply mem_In, C, goes_succs, G.
Qed.
Lemma avoid_closed blocks start a l : (start = a \/ In start l) -> forallb (fun b => forallb (fun c => mem c (a :: l)) (succs blocks b)) l = true ->
  forall b, reachable_avoiding blocks start a b -> In b l.
Proof.
  intros S0 C b R. rewrite forallb_forall in C. induction R as [N|b c R IH G N]; [destruct S0; [contradiction|assumption]|].
  specialize (C b IH). rewrite forallb_forall in C. specialize (C c (goes_succs _ _ _ G)). apply mem_In in C. destruct C as [->|H]; [destruct (N eq_refl)|exact H].
Qed.

(** An if with a call in one branch, then a loop whose body falls into its header. *)
Definition demo : list (string * eblock) :=
  [ ("Block0", blk "C0" "conditional" (Some "Block2") (Some "Block1") (Some "JUMPI"));
    ("Block1", blk "C1" "sub_block" None (Some "Block1s") (Some "f"));
    ("Block1s", blk "C1s" "unconditional" (Some "Block3") None (Some "JUMP"));
    ("Block2", blk "C2" "unconditional" (Some "Block3") None (Some "JUMP"));
    ("Block3", blk "C3" "conditional" (Some "Block4") (Some "Block5") (Some "JUMPI"));
    ("Block4", blk "C4" "falls_to" None (Some "Block3") None);
    ("Block5", blk "C5" "mainExit" None None None) ].
Definition demo_tags : list (string * Z) := [("Block2", 1%Z); ("Block3", 2%Z); ("Block4", 3%Z); ("Block1s", 4%Z)].

Lemma demo_reach b : reachable demo "Block0" b -> In b (map fst demo).
Proof. apply reach_closed; [left; reflexivity|vm_compute; reflexivity]. Qed.
Lemma demo_falls b c : falls demo b c -> In (b, c) [("Block0", "Block1"); ("Block1", "Block1s"); ("Block3", "Block5"); ("Block4", "Block3")].
Proof.
  intros (k & E & T & F). unfold demo in E. cbn [lookup] in E.
  repeat match type of E with (if (?a =? ?b)%string then _ else _) = _ => destruct (String.eqb_spec a b); [subst b; injection E as <-; cbn in T, F; try discriminate F; injection F as <-; cbn; tauto|] end.
  discriminate E.
Qed.
Example demo_well_formed : well_formed ["f"] demo_tags demo "Block0".
Proof.
  constructor.
  - split; [discriminate|reflexivity].
  - intros b R. apply demo_reach in R. cbn in R.
    repeat (destruct R as [<-|R]; [eexists; do 3 eexists; split; [reflexivity|]; split; [reflexivity|]; split; [reflexivity|reflexivity]|]). destruct R.
  - intros b k R E. apply demo_reach in R. cbn in R.
    repeat (destruct R as [<-|R]; [injection E as <-; cbn|]); [..|destruct R].
    + left. split; [reflexivity|]. do 2 eexists. repeat split; discriminate.
    + right; right; right; left. split; [reflexivity|]. split; [eexists; split; [reflexivity|discriminate]|]. eexists. split; [reflexivity|]. left. reflexivity.
    + right; left. split; [reflexivity|]. eexists. split; [reflexivity|discriminate].
    + right; left. split; [reflexivity|]. eexists. split; [reflexivity|discriminate].
    + left. split; [reflexivity|]. do 2 eexists. repeat split; discriminate.
    + right; right; left. split; [reflexivity|]. eexists. split; [reflexivity|discriminate].
    + right; right; right; right; right; right. reflexivity.
  - intros b c R F (k & ids & last & E & Ids & _ & C). apply demo_falls in F. cbn in F.
    repeat (destruct F as [F|F]; [injection F as <- <-; injection E as <-; injection Ids as <-; destruct (lookup _ demo_tags); discriminate C|]). destruct F.
  - intros b b' k c R R' E T J G. apply demo_reach in R. apply demo_reach in R'. apply goes_succs in G. cbn in R, R'.
    assert (Q : (b = "Block0" /\ c = "Block2" /\ eb_falls_to k = Some "Block1") \/ (b = "Block3" /\ c = "Block4" /\ eb_falls_to k = Some "Block5")).
    { clear R' G b'. repeat (destruct R as [<-|R]; [injection E as <-; cbn in T, J; first [discriminate T|injection J as <-; auto]|]). destruct R. }
    destruct Q as [(-> & -> & ->)|(-> & -> & ->)]; (split; [|discriminate]); clear - R' G;
      repeat (destruct R' as [<-|R']; [cbn in G; first [reflexivity|repeat (destruct G as [G|G]; [discriminate G|]); destruct G]|]); destruct R'.
  - intros b b' c R R' F F'. apply demo_falls in F. apply demo_falls in F'. cbn in F, F'.
    repeat (destruct F as [F|F]; [injection F as <- <-; repeat (destruct F' as [F'|F']; [injection F' as <-; try discriminate; reflexivity|]); destruct F'|]). destruct F.
  - intros b R F. apply demo_falls in F. cbn in F. repeat (destruct F as [F|F]; [congruence|]). destruct F.
  - intros b R F. apply demo_falls in F. cbn in F. repeat (destruct F as [F|F]; [congruence|]). destruct F.
  - intros a b c R F F'. apply demo_falls in F. apply demo_falls in F'. cbn in F, F'.
    assert (D1 : dominates demo "Block0" "Block1" "Block1s").
    { intros A. apply (avoid_closed demo "Block0" "Block1" ["Block0"; "Block2"; "Block3"; "Block4"; "Block5"]) in A; [|right; left; reflexivity|vm_compute; reflexivity].
      cbn in A. repeat (destruct A as [A|A]; [discriminate A|]). destruct A. }
    assert (D2 : dominates demo "Block0" "Block3" "Block5").
    { intros A. apply (avoid_closed demo "Block0" "Block3" ["Block0"; "Block1"; "Block1s"; "Block2"]) in A; [|right; left; reflexivity|vm_compute; reflexivity].
      cbn in A. repeat (destruct A as [A|A]; [discriminate A|]). destruct A. }
    repeat (destruct F as [F|F]; [injection F as <- <-; repeat (destruct F' as [F'|F']; [try discriminate F'; injection F' as <-; assumption|]); destruct F'|]). destruct F.
Qed.
Example demo_code : option_map (map a_name) (match traverse_cfg_block_list 7 ["f"] demo_tags demo "Block0" with Ok c => Some c | Raise _ => None end)
  = Some ["C0"; "JUMPI"; "C1"; "JUMP"; "tag"; "JUMPDEST"; "C1s"; "JUMP"; "tag"; "JUMPDEST"; "C4"; "tag"; "JUMPDEST"; "C3"; "JUMPI"; "C5"; "STOP"; "tag"; "JUMPDEST"; "C2"; "JUMP"].
Proof. vm_compute. reflexivity. Qed.

(** Without [wf_jumpi_target]: a block entered by a conditional jump and by
    another jump is emitted twice, with its tag. *)
Definition shared_target : list (string * eblock) :=
  [ ("Block0", blk "C0" "conditional" (Some "Block2") (Some "Block1") (Some "JUMPI"));
    ("Block1", blk "C1" "unconditional" (Some "Block2") None (Some "JUMP"));
    ("Block2", blk "C2" "mainExit" None None None) ].
Theorem emission_twice_refuted : exists code,
  traverse_cfg_block_list 10 [] [("Block2", 1%Z)] shared_target "Block0" = Ok code /\
  map a_name code = ["C0"; "JUMPI"; "C1"; "JUMP"; "tag"; "JUMPDEST"; "C2"; "STOP"; "tag"; "JUMPDEST"; "C2"; "STOP"].
Proof. eexists. split; vm_compute; reflexivity. Qed.

(** Without [wf_chain]: Block2 falls into Block3, which is moved in front of
    Block4, already placed. *)
Definition moved_target : list (string * eblock) :=
  [ ("Block0", blk "C0" "conditional" (Some "Block2") (Some "Block1") (Some "JUMPI"));
    ("Block1", blk "C1" "unconditional" (Some "Block4") None (Some "JUMP"));
    ("Block2", blk "C2" "conditional" (Some "Block5") (Some "Block3") (Some "JUMPI"));
    ("Block3", blk "C3" "conditional" (Some "Block6") (Some "Block4") (Some "JUMPI"));
    ("Block4", blk "C4" "mainExit" None None None);
    ("Block5", blk "C5" "mainExit" None None None);
    ("Block6", blk "C6" "mainExit" None None None) ].
Theorem emission_fall_through_refuted : exists code,
  traverse_cfg_block_list 10 [] [] moved_target "Block0" = Ok code /\ falls moved_target "Block2" "Block3" /\
  map a_name code = ["C0"; "JUMPI"; "C1"; "JUMP"; "C3"; "JUMPI"; "C4"; "STOP"; "C2"; "JUMPI"; "C6"; "STOP"; "C5"; "STOP"].
Proof.
  eexists. split; [vm_compute; reflexivity|]. split; [eexists; split; [reflexivity|split; [left; reflexivity|reflexivity]]|vm_compute; reflexivity].
Qed.

(** A terminal block without ids and with a phi instruction cannot be emitted. *)
Definition terminal_phi : list (string * eblock) :=
  [ ("Block0", {| eb_spec := []; eb_ids := []; eb_type := "terminal"; eb_jump_to := None; eb_falls_to := None;
                  eb_split := Some (ins "revert"); eb_instrs := [ins "PhiFunction"; ins "revert"] |}) ].
Theorem terminal_phi_raises : forall fuel, traverse_cfg_block_list (S fuel) [] [] terminal_phi "Block0" = Raise AssertionError.
Proof. reflexivity. Qed.
(** A block cut at an instruction that is not a call, before a block without a
    last instruction, cannot be emitted either. *)
Definition cut_before_exit : list (string * eblock) :=
  [ ("Block0", blk "C0" "sub_block" None (Some "Block0s") (Some "verbatim_1i_1o")); ("Block0s", blk "C1" "mainExit" None None None) ].
Theorem cut_before_exit_raises : forall fuel, traverse_cfg_block_list (S fuel) [] [] cut_before_exit "Block0" = Raise OtherError.
Proof. reflexivity. Qed.
(** Cut twice, the second time at a call. *)
Definition cut_twice : list (string * eblock) :=
  [ ("Block0", blk "C0" "sub_block" None (Some "Block0s") (Some "gas")); ("Block0s", blk "C1" "sub_block" None (Some "Block0ss") (Some "f")); ("Block0ss", blk "C2" "mainExit" None None None) ].
Example cut_twice_code : exists e code, generate_asm_split_blocks 3 ["f"] cut_twice (snd (hd ("", blk "" "" None None None) cut_twice)) [] = Ok (e, code) /\ length code = 4 /\ eb_falls_to e = Some "Block0ss".
Proof. eexists _, _. split; [vm_compute; reflexivity|]. split; reflexivity. Qed.
Print Assumptions emission_twice_refuted. Print Assumptions emission_fall_through_refuted.

(** The object of the demo and its function satisfy the hypotheses of [object_layout_partial] and [tag_defined_once_partial]. *)
Definition demo_f : list (string * eblock) := [("f_Block0", blk "F0" "FunctionReturn" None None (Some "functionReturn"))].
Definition demo_tags_f : list (string * Z) := demo_tags ++ [("f_Block0", 5%Z)].
Lemma demo_f_reach b : reachable demo_f "f_Block0" b -> b = "f_Block0".
Proof. intros R. apply (reach_closed demo_f "f_Block0" ["f_Block0"]) in R; [destruct R as [<-|[]]; reflexivity|left; reflexivity|reflexivity]. Qed.
Lemma demo_f_falls b c : ~ falls demo_f b c.
Proof. intros (k & E & T & F). unfold demo_f in E. cbn [lookup] in E. destruct (String.eqb_spec "f_Block0" b); [injection E as <-; discriminate F|discriminate E]. Qed.
Example demo_f_well_formed : well_formed ["f"] demo_tags_f demo_f "f_Block0".
Proof.
  constructor.
  - split; [discriminate|reflexivity].
  - intros b R. rewrite (demo_f_reach b R). eexists. do 3 eexists. split; [reflexivity|]. split; [reflexivity|]. split; reflexivity.
  - intros b k R E. rewrite (demo_f_reach b R) in E. injection E as <-. right; right; right; right; right; left. reflexivity.
  - intros b c R F. destruct (demo_f_falls b c F).
  - intros b b' k c R R' E T. rewrite (demo_f_reach b R) in E. injection E as <-. discriminate T.
  - intros b b' c R R' F. destruct (demo_f_falls b c F).
  - intros b R F. destruct (demo_f_falls _ _ F).
  - intros b R F. destruct (demo_f_falls _ _ F).
  - intros a b c R F. destruct (demo_f_falls _ _ F).
Qed.
Lemma more_tags_same b : In b (map fst demo) -> lookup b demo_tags_f = lookup b demo_tags.
Proof. cbn. intros R. repeat (destruct R as [<-|R]; [reflexivity|]). destruct R. Qed.
Lemma demo_code_same b c : In b (map fst demo) -> block_code ["f"] demo_tags_f demo b c <-> block_code ["f"] demo_tags demo b c.
Proof. intros H. unfold block_code. rewrite more_tags_same by exact H. reflexivity. Qed.
Lemma falls_key b c : falls demo b c -> In c (map fst demo).
Proof. intros F. apply demo_falls in F. cbn in *. repeat (destruct F as [F|F]; [injection F as <- <-; tauto|]). destruct F. Qed.
Example demo_well_formed_f : well_formed ["f"] demo_tags_f demo "Block0".
Proof.
  destruct demo_well_formed as [W1 W2 W3 W4 W5 W6 W7 W8 W9]. constructor; try assumption.
  - intros b R. destruct (W2 b R) as [c H]. exists c. apply demo_code_same; [apply demo_reach; exact R|exact H].
  - intros b c R F H. apply (W4 b c R F). apply demo_code_same; [exact (falls_key b c F)|exact H].
Qed.
Example demo_tag_once : exists code, traverse_cfg 7 demo_tags_f (demo, "Block0") [("f", (demo_f, "f_Block0"))] = Ok code /\ definitions 2 code = 1.
Proof.
  destruct (traverse_cfg 7 demo_tags_f (demo, "Block0") [("f", (demo_f, "f_Block0"))]) as [code|] eqn:E; [|vm_compute in E; discriminate].
  exists code. split; [reflexivity|].
  apply (tag_defined_once_partial 7 demo_tags_f (demo, "Block0") [("f", (demo_f, "f_Block0"))] _ demo "Block0" "Block3" 2 code eq_refl).
  - intros bs s [H|[H|[]]]; injection H as <- <-; split; [exact demo_well_formed_f|cbn; lia|exact demo_f_well_formed|cbn; lia].
  - repeat constructor; cbn; intuition discriminate.
  - intros x y z. unfold demo_tags_f, demo_tags. cbn [app lookup].
    repeat match goal with |- context [(?a =? ?b)%string] => destruct (String.eqb_spec a b) end; subst; congruence.
  - intros x z. unfold demo_tags_f, demo_tags. cbn [app lookup].
    repeat match goal with |- context [(?a =? ?b)%string] => destruct (String.eqb_spec a b) end; intros H; inversion H; lia.
  - intros bs s x [H|[H|[]]] R; injection H as <- <-; intros k ids last a Ek Ids Last Ha.
    + apply demo_reach in R. cbn in R. repeat (destruct R as [<-|R]; [injection Ek as <-; injection Ids as <-; cbn in Last; first [injection Last as <-|subst last]; cbn in Ha;
        repeat (destruct Ha as [<-|Ha]; [discriminate|]); destruct Ha|]). destruct R.
    + rewrite (demo_f_reach x R) in Ek. injection Ek as <-. injection Ids as <-. injection Last as <-. cbn in Ha. repeat (destruct Ha as [<-|Ha]; [discriminate|]). destruct Ha.
  - left. reflexivity.
  - apply Reach_step with "Block2"; [apply Reach_step with "Block0"; [constructor|]|]; right; eexists; (split; [reflexivity|]); (split; [cbn; tauto|reflexivity]).
  - reflexivity.
  - exact E.
Qed.
