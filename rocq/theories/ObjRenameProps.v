(** C47: renaming the variables keeps what the whole program does. *)
From Verif Require Import Base Lexical UtilModel UtilProps LiveModel CfgModel CfgProps RenameModel RenameProps JumpModel JumpSpec ObjSem ObjSim ObjRenameModel ObjRenameSpec ObjRename
  SymExecModel MachineSpec DepsModel SpecSem RemoveProps LevelProps JumpExamples ObjProgram ObjExamples.
Open Scope string_scope. Open Scope list_scope.

Definition dict_of (u : cunit) (i : nat) : dict := fst (renaming_dict_from_instrs (u_blocks u) (u_args u) i).
Lemma dict_of_spec u i : fresh_dict i (snd (new_variables u i)) (dict_of u i) /\ (forall x, lookup x (dict_of u i) <> None <-> In x (unit_defs u))
  /\ fst (new_variables u i) = rename_unit (dict_of u i) u.
Proof.
  unfold dict_of, new_variables, renaming_dict_from_instrs. destruct (fold_left next_name (u_args u) ([], i)) as [d1 n1] eqn:E1.
  destruct (fold_left next_name (list_outs (u_blocks u)) (d1, n1)) as [d2 n2] eqn:E2. cbn [fst snd].
  destruct (names_fresh _ i _ _ _ _ (fresh_empty i) E1) as (F1 & L1 & K1). destruct (names_fresh _ i _ _ _ _ F1 E2) as (F2 & L2 & K2).
  split; [exact F2|]. split; [|reflexivity]. intros x. rewrite K2, K1. simpl. unfold unit_defs. rewrite in_app_iff.
  change (flat_map (fun kb : string * cblock => flat_map li_outs (cb_instrs (snd kb))) (cl_blocks (u_blocks u))) with (list_outs (u_blocks u)). intuition.
Qed.
Fixpoint dict_for (fs : list (string * cfun)) (i : nat) (f : string) : dict :=
  match fs with
  | [] => []
  | (g, k) :: fs' => if String.eqb g f then dict_of (function_unit k) i else dict_for fs' (snd (new_variables (function_unit k) i)) f
  end.
Definition dicts (ob : cobject) (c : option string) : dict :=
  match c with None => dict_of (main_unit ob) 0 | Some f => dict_for (ob_functions ob) (snd (new_variables (main_unit ob) 0)) f end.

Lemma lookup_renamed fs f : forall i, lookup f (rename_functions fs i)
  = option_map (fun k => {| fn_args := rename_var_list (dict_for fs i f) (fn_args k); fn_blocks := rename_blocks (dict_for fs i f) (fn_blocks k) |}) (lookup f fs).
Proof.
  induction fs as [|(g, k) fs IH]; intros i; [reflexivity|]. cbn [rename_functions lookup dict_for]. destruct (String.eqb g f); [|apply IH].
  destruct (dict_of_spec (function_unit k) i) as (_ & _ & E). rewrite E. reflexivity.
Qed.
Lemma dict_for_fresh fs f : forall i k, lookup f fs = Some k -> exists a b, fresh_dict a b (dict_for fs i f) /\ forall x, lookup x (dict_for fs i f) <> None <-> In x (unit_defs (function_unit k)).
Proof.
  induction fs as [|(g, k0) fs IH]; intros i k H; [discriminate|]. cbn [lookup dict_for] in *. destruct (String.eqb g f); [|eauto].
  injection H as <-. destruct (dict_of_spec (function_unit k0) i) as (F & K & _). eauto.
Qed.
Lemma dicts_fresh ob c x : defines_at ob c x -> exists a b k, fresh_dict a b (dicts ob c) /\ lookup x (dicts ob c) = Some ("v" ++ str_nat k)%string.
Proof.
  intros D. assert (G : exists a b, fresh_dict a b (dicts ob c) /\ lookup x (dicts ob c) <> None).
  { destruct D as [(f & k & -> & L & I)|(b & blk & i & B & I & O)].
    - destruct (dict_for_fresh _ f (snd (new_variables (main_unit ob) 0)) k L) as (a & n & F & K). exists a, n. split; [exact F|]. apply K. apply in_app_iff. now left.
    - unfold block_at, blocks_at in B. destruct c as [f|].
      + destruct (lookup f (ob_functions ob)) as [k|] eqn:L; [|discriminate]. cbn [option_map] in B.
        destruct (dict_for_fresh _ f (snd (new_variables (main_unit ob) 0)) k L) as (a & n & F & K). exists a, n. split; [exact F|]. apply K. apply in_app_iff. right.
        apply in_flat_map. exists (b, blk). split; [now apply lookup_In|]. apply in_flat_map. eauto.
      + destruct (dict_of_spec (main_unit ob) 0) as (F & K & _). eexists _, _. split; [exact F|]. apply K. apply in_app_iff. right.
        apply in_flat_map. exists (b, blk). split; [now apply lookup_In|]. apply in_flat_map. eauto. }
  destruct G as (a & n & F & N). destruct (lookup x (dicts ob c)) as [y|] eqn:L; [|congruence]. destruct (fd_range _ _ _ F _ _ L) as (k & _ & ->). eauto.
Qed.

Lemma renames_variables ob : renames ob (rename_variables ob) (dicts ob).
Proof.
  constructor.
  - unfold rename_variables. cbn [ob_main]. destruct (dict_of_spec (main_unit ob) 0) as (_ & _ & ->). reflexivity.
  - intros f. apply lookup_renamed.
  - intros c x D. destruct (dicts_fresh ob c x D) as (a & b & k & F & L). unfold rename_var, startswith. rewrite L. destruct (prefix "0x" x) eqn:P; [exact P|].
    pose proof (v_not_constant k) as N. unfold constant in N. destruct (prefix "0x" ("v" ++ str_nat k)%string); [contradiction N; reflexivity|reflexivity].
  - intros c x y Dx Dy E. destruct (dicts_fresh ob c x Dx) as (a & b & k & F & Lx). destruct (dicts_fresh ob c y Dy) as (a' & b' & m & F' & Ly).
    unfold rename_var, startswith in E. rewrite Lx, Ly in E. pose proof (v_not_constant k) as N. pose proof (v_not_constant m) as N'. unfold constant in N, N'.
    destruct (prefix "0x" x) eqn:Px, (prefix "0x" y) eqn:Py; [exact E|subst x; contradiction|subst y; contradiction|]. rewrite E in Lx. exact (fd_inj _ _ _ F _ _ _ Lx Ly).
Qed.

(** Renaming the variables of the main code and of every function keeps what the
    object does: it stops with the same operation, arguments and world, and runs
    forever, exactly when the original does. *)
Theorem renaming_keeps_meaning : forall ob, scoped ob -> tagless ob -> same_up_to_names ob (rename_variables ob).
Proof.
  intros ob S T V W M BO w. apply (renamed_same M ob (rename_variables ob) (dicts ob) (renames_variables ob) S).
  intros c b blk i args w0 B I. symmetry. apply BO; [exact (T c b blk i B I)|reflexivity|reflexivity|]. cbn [rename_instr li_outs]. symmetry. apply map_length.
Qed.
Print Assumptions renaming_keeps_meaning.

(* --- a concrete case --- *)
Definition scopedb (ob : cobject) : bool :=
  forallb (fun cg => let args := match fst cg with Some f => match lookup f (ob_functions ob) with Some k => fn_args k | None => [] end | None => [] end in
     let defs := args ++ list_outs (snd cg) in
     nodupb (map fst (cl_blocks (snd cg))) &&
     forallb (fun kb => forallb (fun x => startswith "0x" x || mem x defs) (flat_map li_ins (cb_instrs (snd kb)) ++ opt_list (cb_cond (snd kb)))) (cl_blocks (snd cg))) (components ob).
Lemma scopedb_sound ob : scopedb ob = true -> scoped ob.
Proof.
  unfold scopedb. rewrite forallb_forall. intros H c x (b & blk & B & R) P.
  assert (exists g, JumpSpec.component ob c g /\ lookup b (cl_blocks g) = Some blk) as (g & K & L).
  { unfold block_at, blocks_at in B. destruct c as [f|]; cbn; [destruct (lookup f (ob_functions ob)) as [k|]; [|discriminate]; cbn in B; eauto|eauto]. }
  assert (LG : forall b', block_at ob c b' = lookup b' (cl_blocks g)).
  { intros b'. unfold block_at, blocks_at. destruct c as [f|]; cbn in K; [destruct K as (k & K1 & K2); rewrite K1; cbn; now rewrite K2|now rewrite K]. }
  apply component_In, H in K. cbn [fst snd] in K. apply andb_true_iff in K as (N & K). apply nodupb_sound in N.
  rewrite forallb_forall in K. pose proof (K _ (lookup_In _ _ _ L)) as Q. cbn [snd] in Q. rewrite forallb_forall in Q.
  assert (I : In x (flat_map li_ins (cb_instrs blk) ++ opt_list (cb_cond blk))).
  { apply in_app_iff. destruct R as [(i & I & J)| ->]; [left; apply in_flat_map; eauto|right; now left]. }
  apply Q in I. unfold startswith in I. rewrite P in I. cbn [orb] in I. apply mem_In, in_app_iff in I as [I|I].
  - left. destruct c as [f|]; [|destruct I]. destruct (lookup f (ob_functions ob)) as [k|] eqn:F; [|destruct I]. exists f, k. auto.
  - right. unfold list_outs, block_outs in I. apply in_flat_map in I as ((b', blk') & I1 & I2). cbn [snd] in I2. apply in_flat_map in I2 as (i & I2 & I3).
    exists b', blk', i. rewrite LG. split; [now apply lookup_NoDup|auto].
Qed.
Lemma machine_words_by_operation {V Loc LV} {sem : semantics V Loc LV} {truth blank} : by_operation (machine_words sem truth blank).
Proof.
  intros i j args w N E L _. cbn. unfold cfg_denote, cfg_imm, cins_of. cbn [c_op c_lit]. rewrite <- E, <- L. destruct (String.eqb_spec (li_op i) "PUSH [tag]"); [contradiction|reflexivity].
Qed.
(** The object with a loop and two functions of ObjExamples.v. *)
Example count_scoped : scoped count_object.
Proof. apply scopedb_sound. vm_compute. reflexivity. Qed.
Definition taglessb (ob : cobject) : bool :=
  forallb (fun cg => forallb (fun kb => forallb (fun i => negb (String.eqb (li_op i) "PUSH [tag]")) (cb_instrs (snd kb))) (cl_blocks (snd cg))) (components ob).
Lemma taglessb_sound ob : taglessb ob = true -> tagless ob.
Proof.
  unfold taglessb. rewrite forallb_forall. intros H c b blk i B I.
  assert (exists g, JumpSpec.component ob c g /\ lookup b (cl_blocks g) = Some blk) as (g & K & L).
  { unfold block_at, blocks_at in B. destruct c as [f|]; cbn; [destruct (lookup f (ob_functions ob)) as [k|]; [|discriminate]; cbn in B; eauto|eauto]. }
  apply component_In, H in K. cbn [snd] in K. rewrite forallb_forall in K. apply lookup_In, K in L. cbn [snd] in L. rewrite forallb_forall in L. apply L in I. now apply negb_true_iff, String.eqb_neq in I.
Qed.
Example count_tagless : tagless count_object.
Proof. apply taglessb_sound. vm_compute. reflexivity. Qed.
Example count_renamed : option_map (fun k => fn_args k) (lookup "next_2" (ob_functions (rename_variables count_object))) = Some ["v4"; "v5"].
Proof. vm_compute. reflexivity. Qed.
Example count_renamed_stops : exists w, stops (machine_words ints nonzero zero) (rename_variables count_object) (fun _ => []) "STOP" [] w /\ w tt = [(2, 7); (1, 2); (0, 1)]%Z.
Proof.
  destruct count_stops as (w & S & E). exists w. split; [|exact E].
  now apply (renaming_keeps_meaning count_object count_scoped count_tagless Z _ _ machine_words_by_operation (fun _ => [])).
Qed.

(** Without the condition the claim fails: the name of a variable that is not
    defined in the component is kept, and can be the new name of another one. *)
Definition capture_object : cobject := {|
  ob_main := parsed [ fin "E" [ins "calldatasize" [] ["x"]; ins "sstore" ["x"; "v0"] []] ]; ob_functions := [] |}.
Theorem renaming_capture_refuted : ~ (forall ob, tagless ob -> same_up_to_names ob (rename_variables ob)).
Proof.
  intros H. pose (M := {| o_do := fun (i : linstr) (_ : list nat) (w : nat) => (repeat 0 (length (li_outs i)), w); o_word := fun _ => 0; o_truth := fun _ => true |}).
  assert (BO : by_operation M) by (intros i j args w _ _ _ E; cbn; now rewrite E).
  destruct (H capture_object (taglessb_sound capture_object eq_refl) nat nat M BO 0) as (S & _). destruct (proj2 (S "STOP" [] 0)) as (s & n & B & R).
  - eexists _, 3. split; vm_compute; reflexivity.
  - vm_compute in B. injection B as <-. destruct n as [|[|n]]; [discriminate|discriminate|]. cbn in R. discriminate.
Qed.
Print Assumptions renaming_capture_refuted.
