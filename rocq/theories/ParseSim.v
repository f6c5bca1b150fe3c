(** Proofs for C58: the object of the file and the parsed object go step by step
    together. *)
From Verif Require Import Base Lexical SymExecModel AsmModel DepsModel SpecModel UtilModel UtilProps UnifyProps LiveModel CfgModel CfgProps JumpModel ObjSem ParseModel ParseSpec ParseProofs ParseTranslate ParseComponent.
Notation lookup := UtilModel.lookup.
Notation successors := CfgModel.successors.
Open Scope string_scope. Open Scope list_scope.

Lemma functions_parsed builtin keys name l : (forall f k, In (f, k) l -> exists k', ParseModel.parse_function builtin keys name f k = Ok k') -> NoDup (map fst l) ->
  forall acc, (forall f, In f (map fst l) -> lookup f acc = None) ->
  exists fs, for_each (fun fs f => do k <- ParseModel.parse_function builtin keys name (fst f) (snd f); Ok (dict_set (fst f) k fs)) l acc = Ok fs
    /\ map fst fs = map fst acc ++ map fst l /\ (forall f k, lookup f acc = Some k -> lookup f fs = Some k)
    /\ forall f k, In (f, k) l -> exists k', ParseModel.parse_function builtin keys name f k = Ok k' /\ lookup f fs = Some k'.
Proof.
  induction l as [|[f k] l IH]; intros P ND acc Fr; cbn [for_each fst snd].
  - exists acc. split; [reflexivity|]. split; [rewrite app_nil_r; reflexivity|]. split; [auto|intros ? ? []].
  - destruct (P f k (or_introl eq_refl)) as (k' & E). rewrite E. cbn [bind]. inversion ND as [|? ? N1 N2]; subst.
    rewrite (dict_set_new f k' acc) by (apply Fr; left; reflexivity).
    destruct (IH (fun f0 k0 I => P f0 k0 (or_intror I)) N2 (acc ++ [(f, k')])) as (fs & R & K & L1 & L2).
    + intros f0 H0. rewrite lookup_app, (Fr f0 (or_intror H0)). cbn [UtilModel.lookup]. destruct (String.eqb_spec f f0) as [->|]; [contradiction|reflexivity].
    + exists fs. split; [exact R|]. split; [rewrite K, map_app, <- app_assoc; reflexivity|]. split.
      * intros f0 k0 H0. apply L1. rewrite lookup_app, H0. reflexivity.
      * intros f0 k0 [H0|H0]; [|apply L2; exact H0]. injection H0 as <- <-. exists k'. split; [exact E|]. apply L1. rewrite lookup_app, (Fr f) by (left; reflexivity). cbn [UtilModel.lookup]. rewrite String.eqb_refl. reflexivity.
Qed.

Definition changed : list string := ["linkersymbol"; "memoryguard"; "datasize"; "dataoffset"; "datacopy"; "setimmutable"; "loadimmutable"].
Definition new_ops : list string := ["pushlib"; "push"; "pushsize"; "push #[$]"; "push [$]"; "codecopy"; "assignimmutable"; "pushimmutable"].
Lemma translated_cases keys index self i : (~ In (li_op i) changed /\ translated keys index self i = i) \/ (In (li_op i) changed /\ In (li_op (translated keys index self i)) new_ops).
Proof.
  unfold translated, changed, new_ops.
  repeat match goal with |- context [String.eqb (li_op i) ?t] => destruct (String.eqb_spec (li_op i) t) as [E|]; [right; rewrite E; split; [cbn; tauto|]|] end.
  1-7: try (cbn; tauto). { cbn [relabel li_op]. destruct (_ =? self); cbn; tauto. }
  left. split; [|reflexivity]. intros [H|[H|[H|[H|[H|[H|[H|[]]]]]]]]; congruence.
Qed.
Lemma translated_same keys index self i : li_ins (translated keys index self i) = li_ins i /\ li_outs (translated keys index self i) = li_outs i.
Proof. unfold translated. repeat match goal with |- context [String.eqb (li_op i) ?t] => destruct (String.eqb (li_op i) t); [split; reflexivity|] end. split; reflexivity. Qed.
Lemma translated_stands keys index self i : literals_ok keys (li_op i) (li_lits i) ->
  stands_for keys index self (li_op i) (li_lits i) (li_op (translated keys index self i)) (li_lits (translated keys index self i)).
Proof.
  intros [H1 H2 H3]. unfold translated.
  destruct (String.eqb_spec (li_op i) "linkersymbol") as [E|N1]; [rewrite E; specialize (H1 E); destruct (li_lits i) as [l|] eqn:L; [|contradiction]; cbn [relabel li_op li_lits]; constructor|].
  destruct (String.eqb_spec (li_op i) "memoryguard") as [E|N2].
  { rewrite E. destruct (H2 E) as (l & -> & F). cbn [relabel li_op li_lits option_map]. constructor. clear - F. induction F as [|x l P F IH]; cbn [map]; constructor; [|exact IH].
    destruct (py_int16 x) as [z|]; [|contradiction]. exists z. split; reflexivity. }
  destruct (String.eqb_spec (li_op i) "datasize") as [E|N3].
  { rewrite E. destruct H3 as (x & r & -> & _); [rewrite E; left; reflexivity|]. cbn [relabel li_op li_lits first]. destruct (String.eqb_spec x self) as [->|N]; [apply sf_own_size; reflexivity|apply sf_size; [exact N|reflexivity]]. }
  destruct (String.eqb_spec (li_op i) "dataoffset") as [E|N4].
  { rewrite E. destruct H3 as (x & r & -> & _); [rewrite E; right; left; reflexivity|]. cbn [relabel li_op li_lits first]. apply sf_offset. reflexivity. }
  destruct (String.eqb_spec (li_op i) "datacopy") as [E|N5]; [rewrite E; constructor|].
  destruct (String.eqb_spec (li_op i) "setimmutable") as [E|N6]; [rewrite E; constructor|].
  destruct (String.eqb_spec (li_op i) "loadimmutable") as [E|N7]; [rewrite E; constructor|].
  apply sf_other. intros [H|[H|[H|[H|[H|[H|[H|[]]]]]]]]; congruence.
Qed.

Section Object.
Variables (builtin : bool) (keys : list (string * nat)) (name : string) (o : jobject).
Hypothesis OK : jobject_ok builtin keys o.
Notation fnames := (map fst (jo_functions o)).
Definition prefix_of (c : option string) : string := match c with None => name | Some f => f end.
Definition index_for (c : option string) : string -> Z := number (numbers keys (prefix_of c) name (jblocks o c)).
Definition image_of (c : option string) (i : linstr) : linstr := rewritten builtin keys (prefix_of c) name (jblocks o c) i.
Definition known (c : option string) : Prop := match c with None => True | Some f => exists k, lookup f (jo_functions o) = Some k end.
Lemma known_ok c : known c -> jcomponent_ok builtin keys fnames (jentry o c) (jblocks o c).
Proof.
  destruct c as [f|]; [|intros _; exact (proj2 (jk_main _ _ _ OK))]. intros (k & L). cbn [jentry jblocks]. rewrite L. cbn [option_map]. eapply (jk_functions _ _ _ OK). apply lookup_In. exact L.
Qed.
Definition faithful (ob : cobject) (c : option string) : Prop := exists g, blocks_at ob c = Some g
  /\ (exists s, jentry o c = Some s /\ cl_start g = Some (block_name (prefix_of c) s))
  /\ forall x b, jreached o c x -> jblock_at o c x = Some b -> exists k, lookup (block_name (prefix_of c) x) (cl_blocks g) = Some k /\ image (prefix_of c) (image_of c) b k.
Lemma object_parsed : exists ob, parse_object builtin keys name o = Ok ob /\ (forall c, known c -> faithful ob c)
  /\ (forall f k, lookup f (jo_functions o) = Some k -> exists k', lookup f (ob_functions ob) = Some k' /\ fn_args k' = rev (jf_args k))
  /\ (forall f, lookup f (jo_functions o) = None -> lookup f (ob_functions ob) = None).
Proof.
  destruct (component_ok builtin keys fnames name name o None (known_ok None I)) as (g & R & St & Im & _).
  assert (Fn : forall f k, In (f, k) (jo_functions o) -> lookup f (jo_functions o) = Some k).
  { intros f k H. pose proof (proj1 (jk_names _ _ _ OK)) as ND. clear - H ND. induction (jo_functions o) as [|[f' k'] l IH]; [destruct H|]. cbn [UtilModel.lookup]. inversion ND as [|? ? N1 N2]; subst.
    destruct H as [H|H]; [injection H as -> ->; rewrite String.eqb_refl; reflexivity|]. destruct (String.eqb_spec f' f) as [->|]; [|apply IH; assumption].
    exfalso. apply N1. apply in_map_iff. exists (f, k). auto. }
  assert (Pf : forall f k, lookup f (jo_functions o) = Some k -> exists g, ParseModel.parse_function builtin keys name f k = Ok {| fn_args := rev (jf_args k); fn_blocks := g |}
    /\ (exists s, jentry o (Some f) = Some s /\ cl_start g = Some (block_name f s))
    /\ forall x b, jreached o (Some f) x -> jblock_at o (Some f) x = Some b -> exists k0, lookup (block_name f x) (cl_blocks g) = Some k0 /\ image f (image_of (Some f)) b k0).
  { intros f k L. destruct (component_ok builtin keys fnames name f o (Some f) (known_ok (Some f) (ex_intro _ k L))) as (gf & Rf & Sf & If & _).
    exists gf. split; [|split; [exact Sf|exact If]]. unfold ParseModel.parse_function. cbn [jblocks] in Rf. rewrite L in Rf. rewrite Rf. reflexivity. }
  destruct (functions_parsed builtin keys name (jo_functions o)) with (acc := @nil (string * JumpModel.cfun)) as (fs & Rf & Kf & _ & Lf).
  { intros f k H. destruct (Pf f k (Fn f k H)) as (gf & E & _). eauto. }
  { exact (proj1 (jk_names _ _ _ OK)). }
  { reflexivity. }
  unfold parse_object. cbn [jblocks] in R. destruct (jo_blocks o) as [bs|] eqn:Eb; [|destruct (proj1 (jk_main _ _ _ OK)); exact Eb].
  cbn [of_option bind]. rewrite R. cbn [bind]. rewrite Rf. cbn [bind]. eexists. split; [reflexivity|]. cbn [map app] in Kf.
  set (ob := identify_function_calls _).
  assert (Lob : forall f, lookup f (ob_functions ob) = option_map (fun k => {| fn_args := fn_args k; fn_blocks := identify_list (map fst fs) (fn_blocks k) |}) (lookup f fs)).
  { intros f. unfold ob, identify_function_calls. cbn [ob_functions ob_main]. generalize (identify_list (map fst fs)). intros h. induction fs as [|[f' k'] l IH]; [reflexivity|].
    cbn [map UtilModel.lookup fst snd]. destruct (String.eqb f' f); [reflexivity|]. clear - h. induction l as [|[f' k'] l IH]; [reflexivity|]. cbn [map UtilModel.lookup fst snd]. destruct (String.eqb f' f); [reflexivity|exact IH]. }
  assert (Al : forall c g0 g1, alike_list g0 g1 -> blocks_at ob c = Some g1 -> (exists s, jentry o c = Some s /\ cl_start g0 = Some (block_name (prefix_of c) s))
    -> (forall x b, jreached o c x -> jblock_at o c x = Some b -> exists k, lookup (block_name (prefix_of c) x) (cl_blocks g0) = Some k /\ image (prefix_of c) (image_of c) b k) -> faithful ob c).
  { intros c g0 g1 (A1 & A2 & A3) B (s & E1 & E2) H. exists g1. split; [exact B|]. split; [exists s; split; [exact E1|congruence]|]. intros x b Rx Hb. destruct (H _ _ Rx Hb) as (k & L & Ik).
    destruct (A3 _ _ L) as (k' & L' & A). exists k'. split; [exact L'|]. eapply alike_image; eassumption. }
  split; [|split].
  - intros [f|] Kc.
    + destruct Kc as (k & L). destruct (Lf f k (lookup_In _ _ _ L)) as (k' & E & L'). destruct (Pf f k L) as (gf & E' & Sf & If). rewrite E in E'. injection E' as ->.
      apply (Al (Some f) gf (identify_list (map fst fs) gf)); [apply identify_alike| |exact Sf|exact If]. cbn [blocks_at]. rewrite Lob, L'. reflexivity.
    + apply (Al None g (identify_list (map fst fs) g)); [apply identify_alike|reflexivity|exact St|exact Im].
  - intros f k L. destruct (Lf f k (lookup_In _ _ _ L)) as (k' & E & L'). destruct (Pf f k L) as (gf & E' & _). rewrite E in E'. injection E' as ->. rewrite Lob, L'. eexists. split; reflexivity.
  - intros f L. rewrite Lob. apply lookup_None in L. rewrite <- Kf in L. apply lookup_None in L. rewrite L. reflexivity.
Qed.

Lemma image_op c i : (li_op (image_of c i) = li_op i /\ (builtin = true \/ ~ In (li_op i) changed)) \/ (In (li_op i) changed /\ In (li_op (image_of c i)) new_ops).
Proof.
  unfold image_of, rewritten. destruct builtin; [left; split; auto|]. destruct (translated_cases keys (number (numbers keys (prefix_of c) name (jblocks o c))) name i) as [[A B]|[A B]]; [left; rewrite B; auto|right; auto].
Qed.
Lemma image_io c i : li_ins (image_of c i) = li_ins i /\ li_outs (image_of c i) = li_outs i.
Proof. unfold image_of, rewritten. destruct builtin; [split; reflexivity|apply translated_same]. Qed.
Lemma image_is c i t : ~ In t changed -> ~ In t new_ops -> String.eqb (li_op (image_of c i)) t = String.eqb (li_op i) t.
Proof.
  intros N1 N2. destruct (image_op c i) as [[E _]|[A B]]; [rewrite E; reflexivity|].
  destruct (String.eqb_spec (li_op (image_of c i)) t) as [<-|]; [contradiction|]. destruct (String.eqb_spec (li_op i) t) as [<-|]; [contradiction|reflexivity].
Qed.

Variable ob : cobject.
Hypothesis Faith : forall c, known c -> faithful ob c.
Hypothesis Funs : forall f k, lookup f (jo_functions o) = Some k -> exists k', lookup f (ob_functions ob) = Some k' /\ fn_args k' = rev (jf_args k).
Hypothesis NoFuns : forall f, lookup f (jo_functions o) = None -> lookup f (ob_functions ob) = None.
Context {V W : Type} (D : jwords V W) (M : words V W).
Hypothesis Ag : agrees builtin keys name index_for D M.

Lemma value_same e x : jvalue D e x = value M e x.
Proof. unfold jvalue, value. rewrite (ag_word _ _ _ _ _ _ Ag). reflexivity. Qed.
Lemma values_same e xs : jvalues D e xs = values M e xs.
Proof. induction xs as [|x xs IH]; cbn [jvalues values]; [reflexivity|]. rewrite value_same, IH. reflexivity. Qed.

Definition good_rest (rest : list jinstr) : Prop := Forall (fun i => jinstr_ok builtin keys fnames i /\ operation i <> "PhiFunction") rest.
Definition during (c : option string) (b : string) (rest : list jinstr) (b' : string) (rest' : list linstr) : Prop :=
  known c /\ jreached o c b /\ b' = block_name (prefix_of c) b /\ good_rest rest /\
  exists blk x, jblock_at o c b = Some blk /\ js_exit blk = Some x /\ rest' = map (image_of c) (map plain rest ++ ending x).
Record paused (k : jcall V) (k' : suspended V) : Prop := {
  pa_comp : sp_comp k' = jp_comp k; pa_outs : sp_outs k' = jp_outs k; pa_vars : sp_vars k' = jp_vars k;
  pa_during : during (jp_comp k) (jp_block k) (jp_rest k) (sp_block k') (sp_rest k')
}.
Inductive related : jstate V W -> state V W -> Prop :=
| re_doing c b rest e w calls b' rest' calls' : during c b rest b' rest' -> Forall2 paused calls calls' -> related (JDoing c b rest e w calls) (Doing c b' rest' e w calls')
| re_done op args w : related (JDone op args w) (Done op args w).
Definition both (s : option (jstate V W)) (s' : option (state V W)) : Prop :=
  match s, s' with Some s, Some s' => related s s' | None, None => True | _, _ => False end.

Lemma index_of_names nm f l : index_of (block_name nm f) (map (block_name nm) l) = index_of f l.
Proof.
  induction l as [|y l IH]; cbn [map index_of]; [reflexivity|].
  assert (E : String.eqb (block_name nm y) (block_name nm f) = String.eqb y f). { destruct (String.eqb_spec y f) as [->|N]; [apply String.eqb_refl|]. apply String.eqb_neq. intros Q. apply block_name_inj in Q. contradiction. }
  assert (E' : String.eqb (block_name nm f) (block_name nm y) = String.eqb f y) by (rewrite (String.eqb_sym f y), <- E; apply String.eqb_sym).
  rewrite ?E, ?E', IH. reflexivity.
Qed.
Lemma jphis_split phis rest : Forall (fun i => operation i = "PhiFunction" /\ length (results i) = 1) phis -> Forall (fun i => operation i <> "PhiFunction") rest -> jphis (phis ++ rest) = (phis, rest).
Proof.
  intros F G. induction F as [|p phis [P _] F IH]; cbn [app jphis].
  - destruct rest as [|i rest]; [reflexivity|]. inversion G; subst. cbn [jphis]. destruct (String.eqb_spec (operation i) "PhiFunction"); [contradiction|reflexivity].
  - rewrite P, String.eqb_refl, IH. reflexivity.
Qed.
Lemma not_phi : ~ In "PhiFunction" changed /\ ~ In "PhiFunction" new_ops.
Proof. split; intros H; cbn in H; repeat (destruct H as [H|H]; [discriminate H|]); exact H. Qed.
Lemma not_return : ~ In "functionReturn" changed /\ ~ In "functionReturn" new_ops.
Proof. split; intros H; cbn in H; repeat (destruct H as [H|H]; [discriminate H|]); exact H. Qed.
Lemma phis_of_split c phis rest x : Forall (fun i => operation i = "PhiFunction" /\ length (results i) = 1) phis -> Forall (fun i => operation i <> "PhiFunction") rest ->
  phis_of (map (image_of c) (map plain (phis ++ rest) ++ ending x)) = (map (fun i => image_of c (plain i)) phis, map (image_of c) (map plain rest ++ ending x)).
Proof.
  intros F G. induction F as [|p phis [P _] F IH]; cbn [app map].
  - destruct rest as [|i rest]; cbn [map app].
    + unfold ending. destruct (jx_type x); [|reflexivity]. destruct (_ =? "FunctionReturn"); [|reflexivity]. cbn [map phis_of]. rewrite image_is by apply not_phi. reflexivity.
    + inversion G; subst. cbn [phis_of]. rewrite image_is by apply not_phi. cbn [plain li_op]. destruct (String.eqb_spec (operation i) "PhiFunction"); [contradiction|reflexivity].
  - cbn [phis_of]. rewrite image_is by apply not_phi. cbn [plain li_op]. rewrite P, String.eqb_refl, IH. reflexivity.
Qed.
Lemma phi_values_same c e n phis : Forall (fun i => operation i = "PhiFunction" /\ length (results i) = 1) phis ->
  jphi_values D e n phis = phi_values M e n (map (fun i => image_of c (plain i)) phis).
Proof.
  intros F. induction F as [|p phis [P _] F IH]; cbn [map jphi_values phi_values]; [reflexivity|]. rewrite (proj1 (image_io c (plain p))). cbn [plain li_ins]. rewrite P, String.eqb_refl.
  destruct (nth_error (listed (ji_in p)) n); [|reflexivity]. rewrite value_same, IH. reflexivity.
Qed.
Lemma phi_outs_same c phis : flat_map li_outs (map (fun i => image_of c (plain i)) phis) = flat_map results phis.
Proof. induction phis as [|p phis IH]; cbn [map flat_map]; [reflexivity|]. rewrite (proj2 (image_io c (plain p))), IH. reflexivity. Qed.

Lemma goto_same c from to e w calls calls' : known c -> jreached o c to -> Forall2 paused calls calls' ->
  both (jgoto D o c from (Some to) e w calls) (goto M ob c (option_map (block_name (prefix_of c)) from) (Some (block_name (prefix_of c) to)) e w calls').
Proof.
  intros Kc R Cs. destruct (Faith c Kc) as (g & B & _ & Im). destruct (reached_blocks builtin keys fnames o c (known_ok c Kc) to R) as (b & Hb).
  destruct (Im _ _ R Hb) as (k & L & [(x & X & Ei & Is) En]). unfold jgoto, goto, block_at. rewrite B, L, Hb.
  destruct (block_good builtin keys fnames o c (known_ok c Kc) _ _ Hb) as [[_ _ (phis & rest & Ej & F1 & F2 & F3) _] _].
  unfold jarrive, arrive. rewrite Is. unfold jinstrs. rewrite Ej. rewrite (jphis_split _ _ F1 F2), (phis_of_split c _ _ x F1 F2).
  assert (Du : during c to rest (block_name (prefix_of c) to) (map (image_of c) (map plain rest ++ ending x))).
  { split; [exact Kc|]. split; [exact R|]. split; [reflexivity|]. split; [|exists b, x; auto]. apply Forall_app in F3 as [_ F3]. unfold good_rest. clear - F2 F3. induction F2; inversion F3; subst; constructor; auto. }
  destruct phis as [|p phis].
  - cbn [map option_map both fst snd]. constructor; assumption.
  - cbn [map]. destruct from as [f|]; [|exact I]. cbn [option_map]. rewrite En, index_of_names. destruct (index_of f (js_entries b)) as [n|]; [|exact I].
    change (image_of c (plain p) :: map (fun i => image_of c (plain i)) phis) with (map (fun i => image_of c (plain i)) (p :: phis)).
    rewrite <- (phi_values_same c e n _ F1), phi_outs_same. destruct (jphi_values D e n (p :: phis)) as [vs|]; [|exact I]. cbn [option_map both fst snd]. constructor; assumption.
Qed.

Lemma step_same s s' : related s s' -> both (jstep D o s) (ostep M ob s').
Proof.
  intros [c b rest e w calls b' rest' calls' (Kc & R & -> & G & blk & x & Hb & X & ->) Cs|op args w]; [|exact I].
  destruct (Faith c Kc) as (g & B & (s0 & Es & St) & Im). destruct (Im _ _ R Hb) as (k & L & [(x' & X' & Ei & Is) En]). rewrite X in X'. injection X' as <-.
  destruct rest as [|i rest].
  - cbn [map app jstep]. rewrite Hb, X. unfold jleave.
    assert (Bk : block_at ob c (block_name (prefix_of c) b) = Some k) by (unfold block_at; rewrite B; exact L).
    destruct Ei as [t T N Ty J Fl|f t y T N0 N1 C Ty Cy J Fl|T Ty J Fl|t T In_ Ty J Fl|vs T Re Ty J Fl]; unfold ending; rewrite T; cbn [String.eqb Ascii.eqb Bool.eqb map].
    + unfold ostep. rewrite Bk, Ty. cbn [String.eqb Ascii.eqb Bool.eqb]. unfold next_block. rewrite Ty, J. cbn [String.eqb Ascii.eqb Bool.eqb]. rewrite N.
      apply (goto_same c (Some b) t); [exact Kc| |exact Cs]. eapply jr_step; [exact R|exact Hb|exact X|]. unfold continues. rewrite T. cbn. destruct (jx_targets x); [discriminate|]. injection N as ->. left. reflexivity.
    + unfold ostep. rewrite Bk, Ty. cbn [String.eqb Ascii.eqb Bool.eqb]. unfold next_block. rewrite Ty, Cy, J, Fl. cbn [String.eqb Ascii.eqb Bool.eqb]. rewrite C, value_same.
      destruct (value M e y) as [v|]; [|exact I]. rewrite (ag_truth _ _ _ _ _ _ Ag).
      assert (Cn : continues x = [f; t]). { unfold continues. rewrite T. cbn. destruct (jx_targets x) as [|a [|a' l]]; [discriminate|discriminate|]. injection N0 as ->. injection N1 as ->. reflexivity. }
      destruct (o_truth M v).
      * rewrite N1. apply (goto_same c (Some b) t); [exact Kc| |exact Cs]. eapply jr_step; [exact R|exact Hb|exact X|]. rewrite Cn. right. left. reflexivity.
      * rewrite N0. apply (goto_same c (Some b) f); [exact Kc| |exact Cs]. eapply jr_step; [exact R|exact Hb|exact X|]. rewrite Cn. left. reflexivity.
    + unfold ostep. rewrite Bk, Ty. cbn. constructor.
    + unfold ostep. destruct In_ as [<-|[<-|[]]]; cbn [map String.eqb Ascii.eqb Bool.eqb]; rewrite Bk; unfold next_block; destruct Ty as [<-|[<-|[]]]; cbn [String.eqb Ascii.eqb Bool.eqb]; rewrite J, Fl; exact I.
    + unfold ostep. rewrite (proj1 (image_io c _)). cbn [li_ins]. rewrite values_same. destruct (values M e (listed (jx_returns x))) as [args|]; [|exact I].
      assert (Eo : li_op (image_of c {| li_op := "functionReturn"; li_ins := listed (jx_returns x); li_outs := []; li_lits := None |}) = "functionReturn").
      { apply String.eqb_eq. rewrite image_is by apply not_return. reflexivity. }
      rewrite Eo. rewrite NoFuns. 2: { apply lookup_None. intros Q. apply (proj2 (jk_names _ _ _ OK) _ Q). cbn. tauto. }
      cbn [String.eqb Ascii.eqb Bool.eqb]. inversion Cs as [|p p' cs cs' P Cs']; subst; [exact I|]. destruct P as [P1 P2 P3 P4]. rewrite P2, P3, P1. destruct (_ =? _)%nat; [|exact I].
      cbn [both]. constructor; assumption.
  - cbn [map app jstep]. unfold ostep. inversion G as [|? ? [G1 G2] G3]; subst. rewrite (proj1 (image_io c _)). cbn [plain li_ins].
    destruct (String.eqb_spec (operation i) "PhiFunction"); [contradiction|]. rewrite values_same. destruct (values M e (operands i)) as [args|]; [|exact I].
    set (i' := image_of c (plain i)).
    assert (Du : during c b rest (block_name (prefix_of c) b) (map (image_of c) (map plain rest ++ ending x))) by (split; [exact Kc|]; split; [exact R|]; split; [reflexivity|]; split; [exact G3|]; exists blk, x; auto).
    destruct (lookup (operation i) (jo_functions o)) as [k0|] eqn:Lf.
    + assert (Eo : li_op i' = operation i).
      { destruct (image_op c (plain i)) as [[E _]|[A _]]; [exact E|]. exfalso. apply (proj2 (jk_names _ _ _ OK) (operation i)); [eapply lookup_In_key; exact Lf|]. cbn [plain li_op] in A. cbn in A |- *. tauto. }
      rewrite Eo. destruct (Funs _ _ Lf) as (k' & Lk & Ea). rewrite Lk, Ea, rev_length, rev_involutive. destruct (_ =? _)%nat; [|exact I].
      assert (Kf : known (Some (operation i))) by (exists k0; exact Lf). destruct (Faith _ Kf) as (gf & Bf & (sf & Ef & Sf) & _).
      cbn [blocks_at] in Bf. rewrite Lk in Bf. cbn [option_map] in Bf. injection Bf as Bf. rewrite Bf, Sf. cbn [jentry] in Ef. rewrite Lf in Ef. cbn [option_map] in Ef. injection Ef as <-.
      apply (goto_same (Some (operation i)) None (jf_entry k0)); [exact Kf| |].
      * apply jr_entry. cbn [jentry]. rewrite Lf. reflexivity.
      * constructor; [|exact Cs]. constructor; cbn [sp_comp jp_comp sp_outs jp_outs sp_vars jp_vars jp_block jp_rest sp_block sp_rest]; [reflexivity|exact (proj2 (image_io c (plain i)))|reflexivity|exact Du].
    + assert (Ln : lookup (li_op i') (ob_functions ob) = None).
      { apply NoFuns. destruct (image_op c (plain i)) as [[E _]|[_ A]]; [unfold i'; rewrite E; exact Lf|]. apply lookup_None. intros Q. apply (proj2 (jk_names _ _ _ OK) _ Q). fold i' in A. cbn in A |- *. tauto. }
      rewrite Ln. assert (Er : String.eqb (li_op i') "functionReturn" = false).
      { unfold i'. rewrite image_is by apply not_return. apply String.eqb_neq. exact (proj1 (io_names _ _ _ _ G1)). }
      rewrite Er. assert (Ms : mem (li_op i') stopping = mem (operation i) stopping /\ (mem (operation i) stopping = true -> li_op i' = operation i)).
      { destruct (image_op c (plain i)) as [[E _]|[A A']]; [unfold i'; rewrite E; auto|]. fold i' in A'. cbn [plain li_op] in A.
        assert (N1 : mem (operation i) stopping = false) by (destruct A as [<-|[<-|[<-|[<-|[<-|[<-|[<-|[]]]]]]]]; reflexivity).
        assert (N2 : mem (li_op i') stopping = false) by (destruct A' as [<-|[<-|[<-|[<-|[<-|[<-|[<-|[<-|[]]]]]]]]]; reflexivity). rewrite N1, N2. split; [reflexivity|discriminate]. }
      destruct Ms as [Ms Mo]. rewrite Ms. destruct (mem (operation i) stopping); [rewrite Mo by reflexivity; constructor|].
      assert (Do : jw_do D c (operation i) (ji_lits i) args w = o_do M i' args w).
      { apply (ag_do _ _ _ _ _ _ Ag); [exact (proj1 (proj2 (io_names _ _ _ _ G1)))|]. unfold i', image_of, rewritten, index_for. pose proof (io_literals _ _ _ _ G1) as Lo. destruct builtin; [split; reflexivity|].
        apply (translated_stands keys _ name (plain i)). apply Lo. reflexivity. }
      rewrite Do. destruct (o_do M i' args w) as [vs w']. assert (Eo : li_outs i' = results i) by exact (proj2 (image_io c (plain i))). rewrite Eo. cbn [both]. constructor; assumption.
Qed.
Lemma steps_same n : forall s s', related s s' -> both (jsteps D n o s) (osteps M n ob s').
Proof.
  induction n as [|n IH]; intros s s' H; [exact H|]. cbn [jsteps osteps]. pose proof (step_same s s' H) as Q. unfold both in Q. destruct (jstep D o s), (ostep M ob s'); try contradiction; [apply IH; exact Q|exact I].
Qed.
Lemma begins_same w : both (jbegins D o w) (begins_at M ob w).
Proof.
  destruct (Faith None I) as (g & B & (s & Es & St) & _). injection B as B. unfold jbegins, begins_at. rewrite B, Es, St. apply (goto_same None None s); [exact I|apply jr_entry; exact Es|constructor].
Qed.
Lemma behaviours_same : same_behaviour D M o ob.
Proof.
  intros w. pose proof (begins_same w) as Bg. unfold both in Bg. split.
  - intros op args w'. split; intros (s & n & E & H); rewrite E in Bg.
    + destruct (begins_at M ob w) as [s'|] eqn:E'; [|contradiction]. exists s', n. split; [exact E'|]. pose proof (steps_same n _ _ Bg) as Q. rewrite H in Q. unfold both in Q.
      destruct (osteps M n ob s') as [t|]; [|contradiction]. inversion Q; subst. reflexivity.
    + destruct (jbegins D o w) as [s'|] eqn:E'; [|contradiction]. exists s', n. split; [exact E'|]. pose proof (steps_same n _ _ Bg) as Q. rewrite H in Q. unfold both in Q.
      destruct (jsteps D n o s') as [t|]; [|contradiction]. inversion Q; subst. reflexivity.
  - split; intros (s & E & H); rewrite E in Bg.
    + destruct (begins_at M ob w) as [s'|] eqn:E'; [|contradiction]. exists s'. split; [exact E'|]. intros n. destruct (H n) as (c & b & r & e & w' & cs & Hn). pose proof (steps_same n _ _ Bg) as Q. rewrite Hn in Q. unfold both in Q.
      destruct (osteps M n ob s') as [t|]; [|contradiction]. inversion Q; subst. do 6 eexists. reflexivity.
    + destruct (jbegins D o w) as [s'|] eqn:E'; [|contradiction]. exists s'. split; [exact E'|]. intros n. destruct (H n) as (c & b & r & e & w' & cs & Hn). pose proof (steps_same n _ _ Bg) as Q. rewrite Hn in Q. unfold both in Q.
      destruct (jsteps D n o s') as [t|]; [|contradiction]. inversion Q; subst. do 6 eexists. reflexivity.
Qed.
End Object.
