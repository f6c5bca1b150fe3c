(** Renaming the variables of an object, component by component. *)
From Verif Require Import Base Lexical UtilModel UtilProps LiveModel CfgModel CfgProps RenameModel RenameProps JumpModel ObjSem ObjSim ObjRenameSpec.
From Verif Require AsmModel.
Open Scope string_scope. Open Scope list_scope.

(** [ob'] is [ob] with the variables of component [c] renamed by [d c]. *)
Record renames (ob ob' : cobject) (d : option string -> dict) : Prop := {
  rn_main : ob_main ob' = rename_blocks (d None) (ob_main ob);
  rn_fun : forall f, lookup f (ob_functions ob') = option_map (fun k => {| fn_args := rename_var_list (d (Some f)) (fn_args k); fn_blocks := rename_blocks (d (Some f)) (fn_blocks k) |}) (lookup f (ob_functions ob));
  rn_const : forall c x, defines_at ob c x -> prefix "0x" (rename_var (d c) x) = prefix "0x" x;
  rn_inj : forall c x y, defines_at ob c x -> defines_at ob c y -> rename_var (d c) x = rename_var (d c) y -> x = y
}.

Section Renaming.
Context {V W : Type}.
Variables (M : words V W) (ob ob' : cobject) (d : option string -> dict).
Hypothesis RN : renames ob ob' d.
Hypothesis SC : scoped ob.
(** The meaning of the instructions does not depend on the names. *)
Hypothesis SAME : forall c b blk i args w, block_at ob c b = Some blk -> In i (cb_instrs blk) -> o_do M (rename_instr (d c) i) args w = o_do M i args w.

Lemma block_renamed_at c b : block_at ob' c b = option_map (rename_block (d c)) (block_at ob c b).
Proof.
  assert (R : forall dd g, lookup b (cl_blocks (rename_blocks dd g)) = option_map (rename_block dd) (lookup b (cl_blocks g))).
  { intros dd g. unfold rename_blocks. cbn [cl_blocks]. induction (cl_blocks g) as [|(k, x) l IH]; [reflexivity|]. cbn. destruct (String.eqb k b); [reflexivity|exact IH]. }
  unfold block_at, blocks_at. destruct c as [f|]; [rewrite (rn_fun _ _ _ RN); destruct (lookup f (ob_functions ob)); [apply R|reflexivity]|rewrite (rn_main _ _ _ RN); apply R].
Qed.

Definition env_rel (c : option string) (e e' : vars (V := V)) : Prop := forall x, defines_at ob c x -> e' (rename_var (d c) x) = e x.
Definition within (c : option string) (l : list linstr) : Prop := exists b blk, block_at ob c b = Some blk /\ incl l (cb_instrs blk).

Lemma rename_const c x : prefix "0x" x = true -> rename_var (d c) x = x.
Proof. intros H. unfold rename_var, startswith. now rewrite H. Qed.
Lemma value_rel c e e' x : env_rel c e e' -> reads_at ob c x -> value M e' (rename_var (d c) x) = value M e x.
Proof.
  intros E R. unfold value, startswith. destruct (prefix "0x" x) eqn:P; [rewrite rename_const by exact P; now rewrite P|].
  pose proof (SC c x R P) as D. rewrite (rn_const _ _ _ RN c x D), P. now apply E.
Qed.
Lemma values_rel c e e' xs : env_rel c e e' -> (forall x, In x xs -> reads_at ob c x) -> values M e' (rename_var_list (d c) xs) = values M e xs.
Proof.
  intros E. induction xs as [|x xs IH]; intros R; [reflexivity|]. cbn [rename_var_list map values]. rewrite (value_rel c e e' x E) by (apply R; now left).
  fold (rename_var_list (d c) xs). rewrite IH by (intros y I; apply R; now right). reflexivity.
Qed.
Lemma assign_rel c e e' : env_rel c e e' -> forall xs vs, (forall x, In x xs -> defines_at ob c x) -> env_rel c (assign e xs vs) (assign e' (rename_var_list (d c) xs) vs).
Proof.
  intros E. induction xs as [|x xs IH]; intros vs D; [exact E|]. cbn [rename_var_list map]. destruct vs as [|v vs]; [exact E|]. cbn [assign].
  intros y Dy. destruct (String.eqb_spec y x) as [->|N]; [now rewrite String.eqb_refl|].
  destruct (String.eqb_spec (rename_var (d c) y) (rename_var (d c) x)) as [Q|_]; [exfalso; apply N; apply (rn_inj _ _ _ RN c); auto; apply D; now left|].
  apply IH; [intros z I; apply D; now right|exact Dy].
Qed.
Lemma phis_rename dd l : phis_of (map (rename_instr dd) l) = (map (rename_instr dd) (fst (phis_of l)), map (rename_instr dd) (snd (phis_of l))).
Proof.
  induction l as [|i l IH]; [reflexivity|]. cbn [map phis_of]. destruct (String.eqb (li_op (rename_instr dd i)) "PhiFunction") eqn:Q;
    change (li_op (rename_instr dd i)) with (li_op i) in Q; rewrite Q; [|reflexivity]. rewrite IH. destruct (phis_of l). reflexivity.
Qed.
Lemma phis_split l : l = fst (phis_of l) ++ snd (phis_of l).
Proof. induction l as [|i l IH]; [reflexivity|]. cbn [phis_of]. destruct (String.eqb (li_op i) "PhiFunction"); [|reflexivity]. destruct (phis_of l). cbn in *. now rewrite <- IH. Qed.
Lemma phi_values_rel c e e' k ps : env_rel c e e' -> (forall i x, In i ps -> In x (li_ins i) -> reads_at ob c x) ->
  phi_values M e' k (map (rename_instr (d c)) ps) = phi_values M e k ps.
Proof.
  intros E. induction ps as [|p ps IH]; intros R; [reflexivity|]. cbn [map phi_values]. change (li_ins (rename_instr (d c) p)) with (map (rename_var (d c)) (li_ins p)). rewrite nth_error_map.
  destruct (nth_error (li_ins p) k) as [a|] eqn:A; [|reflexivity]. cbn [option_map]. rewrite (value_rel c e e' a E) by (apply (R p); [now left|eapply nth_error_In; eauto]).
  rewrite IH by (intros i x I J; apply (R i x); [now right|exact J]). reflexivity.
Qed.

Definition susp_rel (k k' : suspended V) : Prop :=
  sp_comp k' = sp_comp k /\ sp_block k' = sp_block k /\ sp_rest k' = map (rename_instr (d (sp_comp k))) (sp_rest k)
  /\ sp_outs k' = rename_var_list (d (sp_comp k)) (sp_outs k) /\ env_rel (sp_comp k) (sp_vars k) (sp_vars k')
  /\ within (sp_comp k) (sp_rest k) /\ forall x, In x (sp_outs k) -> defines_at ob (sp_comp k) x.
Inductive R : state V W -> state V W -> Prop :=
| R_doing c b rest e e' w calls calls' : env_rel c e e' -> within c rest -> Forall2 susp_rel calls calls' ->
    R (Doing c b rest e w calls) (Doing c b (map (rename_instr (d c)) rest) e' w calls')
| R_done op args w : R (Done op args w) (Done op args w).

Lemma goto_rel c from to e e' w calls calls' : env_rel c e e' -> Forall2 susp_rel calls calls' ->
  orel R (goto M ob c from to e w calls) (goto M ob' c from to e' w calls').
Proof.
  intros E C. unfold goto. destruct to as [b|]; [|exact I]. rewrite block_renamed_at. destruct (block_at ob c b) as [blk|] eqn:B; [|exact I]. cbn [option_map].
  unfold arrive. change (cb_instrs (rename_block (d c) blk)) with (map (rename_instr (d c)) (cb_instrs blk)). change (cb_entries (rename_block (d c) blk)) with (cb_entries blk).
  rewrite phis_rename. pose proof (phis_split (cb_instrs blk)) as S. destruct (phis_of (cb_instrs blk)) as [ps rest]. cbn [fst snd] in *.
  assert (Wi : within c rest) by (exists b, blk; split; [exact B|]; rewrite S; apply incl_appr, incl_refl).
  destruct ps as [|p ps]; [cbn; now constructor|]. cbn [map]. destruct from as [f|]; [|exact I]. destruct (index_of f (cb_entries blk)) as [k|]; [|exact I].
  change (rename_instr (d c) p :: map (rename_instr (d c)) ps) with (map (rename_instr (d c)) (p :: ps)). rewrite (phi_values_rel c e e' k (p :: ps) E).
  - destruct (phi_values M e k (p :: ps)) as [vs|]; [|exact I]. cbn [option_map orel fst snd]. constructor; [|exact Wi|exact C].
    replace (flat_map li_outs (map (rename_instr (d c)) (p :: ps))) with (rename_var_list (d c) (flat_map li_outs (p :: ps))).
    + apply assign_rel; [exact E|]. intros x J. right. apply in_flat_map in J as (i & J1 & J2). exists b, blk, i. split; [exact B|]. split; [rewrite S; apply in_app_iff; now left|exact J2].
    + generalize (p :: ps). intros l. induction l as [|q l IH]; [reflexivity|]. cbn [flat_map map]. unfold rename_var_list in *. rewrite map_app, IH. reflexivity.
  - intros i x J1 J2. exists b, blk. split; [exact B|]. left. exists i. split; [rewrite S; apply in_app_iff; now left|exact J2].
Qed.

Lemma step_rel s s' : R s s' -> orel R (ostep M ob s) (ostep M ob' s').
Proof.
  intros H. destruct H as [c b rest e e' w calls calls' E Wi C|op args w]; [|exact I]. cbn [ostep]. destruct rest as [|i rest].
  - cbn [map]. rewrite block_renamed_at. destruct (block_at ob c b) as [blk|] eqn:B; [|exact I]. cbn [option_map].
    change (cb_type (rename_block (d c) blk)) with (cb_type blk). destruct (String.eqb (cb_type blk) "mainExit"); [constructor|].
    assert (NB : next_block M (rename_block (d c) blk) e' = next_block M blk e).
    { unfold next_block. cbn [rename_block cb_type cb_cond cb_jump_to cb_falls_to]. destruct (String.eqb (cb_type blk) "conditional"); [|reflexivity].
      destruct (cb_cond blk) as [x|] eqn:X; [|reflexivity]. cbn [option_map]. rewrite (value_rel c e e' x E); [reflexivity|]. exists b, blk. split; [exact B|now right]. }
    rewrite NB. now apply goto_rel.
  - destruct Wi as (b0 & blk & B & In0). assert (Ii : In i (cb_instrs blk)) by (apply In0; now left).
    assert (Wr : within c rest) by (exists b0, blk; split; [exact B|intros x J; apply In0; now right]).
    assert (Do : forall x, In x (li_outs i) -> defines_at ob c x) by (intros x J; right; exists b0, blk, i; auto).
    cbn [map]. change (li_ins (rename_instr (d c) i)) with (rename_var_list (d c) (li_ins i)). change (li_op (rename_instr (d c) i)) with (li_op i).
    change (li_outs (rename_instr (d c) i)) with (rename_var_list (d c) (li_outs i)).
    rewrite (values_rel c e e' (li_ins i) E) by (intros x J; exists b0, blk; split; [exact B|left; eauto]).
    destruct (values M e (li_ins i)) as [args|]; [|exact I]. rewrite (rn_fun _ _ _ RN).
    destruct (lookup (li_op i) (ob_functions ob)) as [k|] eqn:K.
    + cbn [option_map fn_args fn_blocks]. unfold rename_var_list at 1. rewrite map_length. destruct (Nat.eqb (length (fn_args k)) (length args)); [|exact I].
      change (cl_start (rename_blocks (d (Some (li_op i))) (fn_blocks k))) with (cl_start (fn_blocks k)). apply goto_rel.
      * unfold rename_var_list. rewrite <- map_rev. apply (assign_rel (Some (li_op i))); [intros x _; reflexivity|]. intros x J. left. exists (li_op i), k. split; [reflexivity|]. split; [exact K|]. now apply in_rev.
      * constructor; [|exact C]. unfold susp_rel. cbn. repeat (split; [first [reflexivity|assumption]|]). exact Do.
    + cbn [option_map]. destruct (String.eqb (li_op i) "functionReturn").
      * destruct C as [|k k' calls calls' (S1 & S2 & S3 & S4 & S5 & S6 & S7) C]; [exact I|]. rewrite S1, S2, S3, S4. unfold rename_var_list at 1. rewrite map_length.
        destruct (Nat.eqb (length (sp_outs k)) (length args)); [|exact I]. cbn [orel]. constructor; [now apply assign_rel|exact S6|exact C].
      * destruct (mem (li_op i) stopping); [constructor|]. rewrite (SAME c b0 blk i args w B Ii). destruct (o_do M i args w) as [vs w']. cbn [orel].
        constructor; [now apply assign_rel|exact Wr|exact C].
Qed.

Lemma renamed_same w : (forall op args w', stops M ob w op args w' <-> stops M ob' w op args w') /\ (goes_on M ob w <-> goes_on M ob' w).
Proof.
  apply (lockstep M ob ob' R).
  - intros s t H. exists 0, t. split; [reflexivity|]. split; [destruct H; reflexivity|now apply step_rel].
  - unfold begins_at. rewrite (rn_main _ _ _ RN). cbn [rename_blocks cl_start]. apply goto_rel; [intros x _; reflexivity|constructor].
Qed.
End Renaming.
