(** Proofs for C58: the block list of one component. *)
From Verif Require Import Base Lexical SymExecModel AsmModel DepsModel SpecModel UtilModel UtilProps UnifyProps LiveModel CfgModel CfgProps JumpModel ObjSem ParseModel ParseSpec.
Notation lookup := UtilModel.lookup.
Notation successors := CfgModel.successors.
Open Scope string_scope. Open Scope list_scope.

(** ** Instructions *)
Definition plain (i : jinstr) : linstr :=
  {| li_op := operation i; li_ins := if String.eqb (operation i) "PhiFunction" then listed (ji_in i) else operands i;
     li_outs := results i; li_lits := ji_lits i |}.
Lemma parse_instruction_ok builtin keys fs i : jinstr_ok builtin keys fs i -> parse_instruction i = Ok (plain i).
Proof.
  intros [(H1 & H2 & H3) (H4 & H5 & H6) H7 H8 _]. unfold parse_instruction, plain, operation, operands, results in *.
  destruct (ji_in i) as [ins|]; [|contradiction]. destruct (ji_op i) as [op|]; [|contradiction]. destruct (ji_out i) as [outs|]; [|contradiction].
  cbn [of_option bind listed] in *. rewrite H6.
  assert (E : (if String.eqb op "LiteralAssignment" then do _ <- of_option (hd_error outs); do _ <- of_option (hd_error ins); Ok tt else Ok tt) = Ok tt).
  { destruct (String.eqb_spec op "LiteralAssignment") as [->|]; [|reflexivity]. destruct (H7 eq_refl) as [A B].
    destruct outs; [contradiction|]. destruct ins; [contradiction|reflexivity]. }
  rewrite E. cbn [bind]. do 2 f_equal.
  destruct (contains "_" op) eqn:C; [apply rev_involutive|]. destruct H8 as [H8|[_ H8]]; [|discriminate].
  destruct outs as [|a [|b outs]]; [reflexivity|reflexivity|cbn in H8; lia].
Qed.

(** ** Blocks *)
Section Names.
Variable nm : string.
Notation bn := (block_name nm).
Lemma block_name_inj a b : bn a = bn b -> a = b.
Proof. unfold block_name. intros H. apply str_app_inj in H. change ("_" ++ a)%string with (String "_"%char a) in H. change ("_" ++ b)%string with (String "_"%char b) in H. congruence. Qed.

Definition ending (x : jexit) : list linstr :=
  match jx_type x with
  | Some t => if String.eqb t "FunctionReturn" then [{| li_op := "functionReturn"; li_ins := listed (jx_returns x); li_outs := []; li_lits := None |}] else []
  | None => []
  end.
Inductive exit_image (x : jexit) (blk : cblock) : Prop :=
| ei_jump t : jx_type x = Some "Jump" -> nth_error (jx_targets x) 0 = Some t -> cb_type blk = "unconditional" -> cb_jump_to blk = Some (bn t) -> cb_falls_to blk = None -> exit_image x blk
| ei_cond f t y : jx_type x = Some "ConditionalJump" -> nth_error (jx_targets x) 0 = Some f -> nth_error (jx_targets x) 1 = Some t -> jx_cond x = Some y ->
    cb_type blk = "conditional" -> cb_cond blk = Some y -> cb_jump_to blk = Some (bn t) -> cb_falls_to blk = Some (bn f) -> exit_image x blk
| ei_main : jx_type x = Some "MainExit" -> cb_type blk = "mainExit" -> cb_jump_to blk = None -> cb_falls_to blk = None -> exit_image x blk
| ei_end t : jx_type x = Some t -> In t ["Terminated"; ""] -> In (cb_type blk) ["terminal"; "falls_to"] -> cb_jump_to blk = None -> cb_falls_to blk = None -> exit_image x blk
| ei_return vs : jx_type x = Some "FunctionReturn" -> jx_returns x = Some vs -> cb_type blk = "FunctionReturn" -> cb_jump_to blk = None -> cb_falls_to blk = None -> exit_image x blk.
(** [blk] is the block [b] with its instructions mapped by [f]. *)
Record image (f : linstr -> linstr) (b : jsblock) (blk : cblock) : Prop := {
  im_exit : exists x, js_exit b = Some x /\ exit_image x blk /\ cb_instrs blk = map f (map plain (jinstrs b) ++ ending x);
  im_entries : cb_entries blk = map bn (js_entries b)
}.
Lemma parse_block_ok builtin keys fs ids b : jblock_ok builtin keys fs ids b -> exists y blk x,
  js_id b = Some y /\ js_exit b = Some x /\ parse_block nm b = Ok (bn y, blk, map bn (jx_targets x)) /\ image (fun i => i) b blk /\ incl (jx_targets x) ids.
Proof.
  intros [H1 H2 (phis & rest & H3 & _ & _ & H4) (x & H5 & H6)]. unfold parse_block. rewrite H5. cbn [of_option bind].
  destruct (js_id b) as [y|]; [|contradiction]. cbn [of_option bind]. rewrite H3. cbn [of_option bind].
  set (is := phis ++ rest) in *.
  assert (E : map_result (fun i => if String.eqb (js_type b) "FunctionReturn" then Raise OtherError else parse_instruction i) is = Ok (map plain is)).
  { apply map_result_total. intros i Hi. destruct (String.eqb_spec (js_type b) "FunctionReturn"); [contradiction|].
    rewrite Forall_forall in H4. eapply parse_instruction_ok. apply H4. exact Hi. }
  rewrite E. cbn [bind].
  assert (J : jinstrs b = is) by (unfold jinstrs; rewrite H3; reflexivity).
  assert (En : forall t, jx_type x = Some t -> t <> "FunctionReturn" -> ending x = []).
  { intros t Q N. unfold ending. rewrite Q. destruct (String.eqb_spec t "FunctionReturn"); [contradiction|reflexivity]. }
  destruct H6 as [t ts T Ts I|f t ts c T Ts C I|t T In_ I|vs T R I].
  - rewrite T. cbn [of_option bind String.eqb Ascii.eqb Bool.eqb]. unfold set_jump_info. cbn [j_type j_targets j_id j_cond j_returns j_entries j_instrs].
    rewrite Ts. cbn. eexists _, _, x. split; [reflexivity|]. split; [reflexivity|]. split; [rewrite Ts; reflexivity|]. split; [|exact I].
    split; [|reflexivity]. exists x. split; [exact H5|]. split; [eapply ei_jump; [exact T|rewrite Ts; reflexivity|reflexivity..]|].
    cbn. rewrite J, (En _ T) by discriminate. rewrite app_nil_r, map_id. reflexivity.
  - rewrite T. cbn [of_option bind String.eqb Ascii.eqb Bool.eqb]. unfold set_jump_info. cbn [j_type j_targets j_id j_cond j_returns j_entries j_instrs].
    rewrite Ts, C. cbn. eexists _, _, x. split; [reflexivity|]. split; [reflexivity|]. split; [rewrite Ts; reflexivity|]. split; [|exact I].
    split; [|reflexivity]. exists x. split; [exact H5|]. split; [eapply ei_cond; [exact T|rewrite Ts; reflexivity|rewrite Ts; reflexivity|exact C|reflexivity..]|].
    cbn. rewrite J, (En _ T) by discriminate. rewrite app_nil_r, map_id. reflexivity.
  - rewrite T. destruct In_ as [<-|[<-|[<-|[]]]]; cbn; eexists _, _, x; (split; [reflexivity|]); (split; [reflexivity|]); (split; [reflexivity|]); (split; [|exact I]);
      (split; [|reflexivity]); exists x; (split; [exact H5|]).
    + split; [eapply ei_end; [exact T|cbn; tauto|cbn; tauto|reflexivity..]|]. cbn. rewrite J, (En _ T) by discriminate. rewrite app_nil_r, map_id. reflexivity.
    + split; [eapply ei_main; [exact T|reflexivity..]|]. cbn. rewrite J, (En _ T) by discriminate. rewrite app_nil_r, map_id. reflexivity.
    + split; [eapply ei_end; [exact T|cbn; tauto|cbn; tauto|reflexivity..]|]. cbn. rewrite J, (En _ T) by discriminate. rewrite app_nil_r, map_id. reflexivity.
  - rewrite T. cbn [of_option bind String.eqb Ascii.eqb Bool.eqb]. rewrite R. cbn. eexists _, _, x. split; [reflexivity|]. split; [reflexivity|]. split; [reflexivity|]. split; [|exact I].
    split; [|reflexivity]. exists x. split; [exact H5|]. split; [eapply ei_return; [exact T|exact R|reflexivity..]|].
    cbn. rewrite J, map_id. unfold ending. rewrite T, R. reflexivity.
Qed.

(** ** The blocks one after the other *)
Lemma dict_set_new {A} k (v : A) d : lookup k d = None -> dict_set k v d = d ++ [(k, v)].
Proof. induction d as [|[k' v'] d IH]; cbn [UtilModel.lookup dict_set]; [reflexivity|]. destruct (String.eqb_spec k' k); [discriminate|]. intros H. rewrite IH by exact H. reflexivity. Qed.
Lemma annotate_keys ts id : forall d k, In k (map fst (fold_left (fun d t => annotate d t id) ts d)) -> In k (map fst d) \/ In k ts.
Proof.
  induction ts as [|t ts IH]; intros d k H; cbn [fold_left] in H; [auto|]. apply IH in H as [H|H]; [|right; right; exact H].
  unfold annotate in H. destruct (key_lookup _ _ H) as (v & L). rewrite lookup_dict_set in L. destruct (String.eqb_spec t k) as [->|]; [right; left; reflexivity|].
  left. eapply lookup_In_key. exact L.
Qed.
Lemma parse_steps builtin keys fs ids bs : forall g d, Forall (jblock_ok builtin keys fs ids) bs -> NoDup (ids_of bs) ->
  (forall x, In x (ids_of bs) -> lookup (bn x) (cl_blocks g) = None) -> (cl_blocks g = [] -> cl_start g = None) ->
  exists g' d', for_each (parse_step nm) bs (g, d) = Ok (g', d')
    /\ map fst (cl_blocks g') = map fst (cl_blocks g) ++ map bn (ids_of bs)
    /\ cl_start g' = match cl_blocks g with [] => option_map bn (hd_error (ids_of bs)) | _ => cl_start g end
    /\ (forall x k, lookup x (cl_blocks g) = Some k -> lookup x (cl_blocks g') = Some k)
    /\ (forall x b, find (has_id x) bs = Some b -> exists k, lookup (bn x) (cl_blocks g') = Some k /\ image (fun i => i) b k)
    /\ (forall k, In k (map fst d') -> In k (map fst d) \/ In k (map bn ids)).
Proof.
  induction bs as [|b bs IH]; intros g d OK ND F St; cbn [for_each].
  - exists g, d. split; [reflexivity|]. split; [rewrite app_nil_r; reflexivity|]. split; [destruct (cl_blocks g); [apply St; reflexivity|reflexivity]|].
    split; [auto|]. split; [discriminate|auto].
  - inversion OK as [|? ? OK1 OK2]; subst. destruct (parse_block_ok _ _ _ _ _ OK1) as (y & blk & x & Y & X & P & Im & Inc).
    assert (Ei : ids_of (b :: bs) = y :: ids_of bs) by (unfold ids_of; cbn [flat_map]; rewrite Y; reflexivity). rewrite Ei in *.
    inversion ND as [|? ? ND1 ND2]; subst. unfold parse_step at 1. rewrite P. cbn [bind].
    assert (Fy : lookup (bn y) (cl_blocks g) = None) by (apply F; left; reflexivity).
    unfold add_block. assert (A : py_assert (negb (match cl_blocks g with [] => true | _ => false end || false) || opt_eqb (cl_start g) None) = Ok tt).
    { destruct (cl_blocks g) eqn:Eg; [rewrite St by reflexivity|]; reflexivity. }
    cbn [fst snd]. rewrite A. cbn [bind]. rewrite (dict_set_new _ _ _ Fy).
    match goal with |- context [for_each (parse_step nm) bs (?G, ?D)] => destruct (IH G D OK2 ND2) as (g' & d' & R & K & S1 & L1 & L2 & Dk) end.
    + cbn [cl_blocks]. intros z Hz. rewrite lookup_app, (F z (or_intror Hz)). cbn [UtilModel.lookup]. destruct (String.eqb_spec (bn y) (bn z)) as [E|]; [|reflexivity].
      apply block_name_inj in E. subst. contradiction.
    + cbn [cl_blocks]. intros E. destruct (cl_blocks g); discriminate.
    + cbn [cl_blocks cl_start] in *. exists g', d'. split; [exact R|]. split; [rewrite K, map_app, <- app_assoc; reflexivity|]. split; [|split; [|split]].
      * rewrite S1. destruct (cl_blocks g); reflexivity.
      * intros z k Lz. apply L1. rewrite lookup_app, Lz. reflexivity.
      * intros z b' Fz. cbn [find] in Fz. destruct (has_id z b) eqn:Hz; [|apply L2; exact Fz]. injection Fz as <-.
        assert (z = y) by (unfold has_id in Hz; rewrite Y in Hz; apply String.eqb_eq in Hz; congruence). subst z.
        exists blk. split; [|exact Im]. apply L1. rewrite lookup_app, Fy. cbn [UtilModel.lookup]. rewrite String.eqb_refl. reflexivity.
      * intros k Hk. apply Dk in Hk as [Hk|Hk]; [|right; exact Hk]. apply annotate_keys in Hk as [Hk|Hk]; [left; exact Hk|].
        right. apply in_map_iff in Hk as (t & <- & Ht). apply in_map. apply Inc. exact Ht.
Qed.

(** ** Predecessors *)
Definition alike (k k' : cblock) : Prop :=
  cb_instrs k' = cb_instrs k /\ cb_type k' = cb_type k /\ cb_jump_to k' = cb_jump_to k /\ cb_falls_to k' = cb_falls_to k /\ cb_cond k' = cb_cond k /\ cb_entries k' = cb_entries k.
Lemma alike_image f b k k' : alike k k' -> image f b k -> image f b k'.
Proof.
  intros (A1 & A2 & A3 & A4 & A5 & A6) [(x & E & X & I) En]. split; [|congruence]. exists x. split; [exact E|]. split; [|congruence].
  destruct X; [eapply ei_jump|eapply ei_cond|eapply ei_main|eapply ei_end|eapply ei_return]; try eassumption; try congruence; rewrite A2; assumption.
Qed.
Definition alike_list (g g' : clist) : Prop :=
  map fst (cl_blocks g') = map fst (cl_blocks g) /\ cl_start g' = cl_start g /\ forall x k, lookup x (cl_blocks g) = Some k -> exists k', lookup x (cl_blocks g') = Some k' /\ alike k k'.
Lemma alike_list_refl g : alike_list g g.
Proof. split; [reflexivity|]. split; [reflexivity|]. intros x k H. exists k. split; [exact H|]. repeat split. Qed.
Lemma alike_list_trans a b c : alike_list a b -> alike_list b c -> alike_list a c.
Proof.
  intros (H1 & H2 & H3) (K1 & K2 & K3). split; [congruence|]. split; [congruence|]. intros x k L. destruct (H3 _ _ L) as (k' & L' & A). destruct (K3 _ _ L') as (k'' & L'' & A').
  exists k''. split; [exact L''|]. destruct A as (? & ? & ? & ? & ? & ?), A' as (? & ? & ? & ? & ? & ?). repeat split; congruence.
Qed.
Lemma inner_ok y ps : forall g, In y (map fst (cl_blocks g)) -> exists g',
  for_each (fun g p => if String.eqb y p then Ok g else do b <- get_block y g; Ok (put_block y (add_comes_from p b) g)) ps g = Ok g' /\ alike_list g g'.
Proof.
  induction ps as [|p ps IH]; intros g H; cbn [for_each]; [exists g; split; [reflexivity|apply alike_list_refl]|].
  destruct (String.eqb_spec y p); cbn [bind]; [apply IH; exact H|].
  destruct (key_lookup _ _ H) as (k & L). unfold get_block at 1. rewrite L. cbn [of_option bind].
  destruct (put_shape y (add_comes_from p k) g H) as (E1 & E2 & _).
  assert (A : alike_list g (put_block y (add_comes_from p k) g)).
  { split; [exact E1|]. split; [exact E2|]. intros x k0 L0. cbn [put_block cl_blocks]. rewrite lookup_dict_set. destruct (String.eqb_spec y x) as [->|]; [|exists k0; split; [exact L0|repeat split]].
    rewrite L in L0. injection L0 as <-. eexists. split; [reflexivity|repeat split]. }
  destruct (IH (put_block y (add_comes_from p k) g)) as (g' & R & A'); [rewrite E1; exact H|]. exists g'. split; [exact R|]. eapply alike_list_trans; eassumption.
Qed.
Lemma update_comes_from_ok d : forall g, (forall k, In k (map fst d) -> In k (map fst (cl_blocks g))) -> exists g', update_comes_from d g = Ok g' /\ alike_list g g'.
Proof.
  unfold update_comes_from. induction d as [|[y ps] d IH]; intros g H; cbn [for_each]; [exists g; split; [reflexivity|apply alike_list_refl]|].
  cbn [fst snd]. destruct (inner_ok y ps g) as (g1 & R1 & A1); [apply H; left; reflexivity|]. rewrite R1. cbn [bind].
  destruct (IH g1) as (g2 & R2 & A2); [intros k Hk; rewrite (proj1 A1); apply H; right; exact Hk|]. exists g2. split; [exact R2|]. eapply alike_list_trans; eassumption.
Qed.
Lemma identify_alike fs g : alike_list g (identify_list fs g).
Proof.
  split; [cbn [identify_list cl_blocks]; rewrite map_map; reflexivity|]. split; [reflexivity|]. intros x k L. cbn [identify_list cl_blocks].
  exists (process_function_calls fs k). split.
  - revert L. induction (cl_blocks g) as [|[y b] bs IH]; cbn [UtilModel.lookup map fst snd]; [discriminate|]. destruct (String.eqb y x); [congruence|exact IH].
  - unfold process_function_calls. destruct (rev (cb_instrs k)); [repeat split|]. destruct (_ || _); repeat split.
Qed.
End Names.
