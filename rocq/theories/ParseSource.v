(** C58 and C50 together: what the parser makes of a file as solc writes it is what
    the passes are given ([source_ok]). *)
From Coq Require Import Relations Permutation.
From Verif Require Import Base Lexical SymExecModel AsmModel DepsModel SpecModel UtilModel UtilProps UnifyProps LiveModel CfgModel CfgSpec CfgProps MergePassProps JumpModel JumpSpec ObjSem ObjRenameSpec ObjSsaSpec ObjCombineSpec ObjLayoutSpec.
From Verif Require Import ParseModel ParseSpec ParseProofs ParseTranslate ParseComponent ParseSim ParseReady SourceSpec.
Notation lookup := UtilModel.lookup.
Notation successors := CfgModel.successors.
Notation component := JumpSpec.component.
Notation block_name := ParseModel.block_name.
Open Scope string_scope. Open Scope list_scope.

Definition sound_file (o : jobject) : Prop := forall c, known o c -> sound_component o c.

Lemma In_lookup {A} x (v : A) d : NoDup (map fst d) -> In (x, v) d -> lookup x d = Some v.
Proof.
  induction d as [|[y u] d IH]; intros ND H; [destruct H|]. cbn [UtilModel.lookup]. cbn [map fst] in ND. inversion ND as [|? ? N1 N2]; subst. destruct H as [H|H]; [injection H as -> ->; rewrite String.eqb_refl; reflexivity|].
  destruct (String.eqb_spec y x) as [->|]; [|apply IH; assumption]. exfalso. apply N1. apply in_map_iff. exists (x, v). auto.
Qed.

Section Source.
Variables (builtin : bool) (keys : list (string * nat)) (name : string) (o : jobject).
Hypothesis OK : jobject_ok builtin keys o.
Hypothesis PF : plain_file name o.
Hypothesis SF : sound_file o.
Variable ob : cobject.
Hypothesis P : parse_object builtin keys name o = Ok ob.
Notation fnames := (map fst (jo_functions o)).
Notation im := (image_of builtin keys name o).
Notation pre_of := (prefix_of name).

Lemma functions_same : map fst (ob_functions ob) = fnames.
Proof. destruct (components_parsed builtin keys name o OK) as (ob0 & E & F & _). rewrite P in E. injection E as <-. exact F. Qed.
Lemma object_fine : object_ok ob.
Proof. destruct (ready builtin keys name o OK PF) as (ob0 & E & H). rewrite P in E. injection E as <-. exact H. Qed.
Lemma function_args f k : lookup f (ob_functions ob) = Some k -> exists k0, lookup f (jo_functions o) = Some k0 /\ fn_args k = rev (jf_args k0).
Proof.
  intros L. destruct (object_parsed builtin keys name o OK) as (ob0 & E & _ & H1 & H2). rewrite P in E. injection E as <-.
  destruct (lookup f (jo_functions o)) as [k0|] eqn:L0; [|rewrite (H2 _ L0) in L; discriminate]. exists k0. split; [reflexivity|]. destruct (H1 _ _ L0) as (k' & L' & A). congruence.
Qed.
Lemma component_blocks c g : component ob c g <-> blocks_at ob c = Some g.
Proof.
  destruct c as [f|]; cbn [JumpSpec.component blocks_at]; [|split; congruence]. split.
  - intros (k & L & <-). rewrite L. reflexivity.
  - destruct (lookup f (ob_functions ob)) as [k|]; [|discriminate]. cbn. intros E. injection E as <-. eauto.
Qed.
Record come_from (c : option string) (g : clist) : Prop := {
  cf_known : known o c;
  cf_keys : map fst (cl_blocks g) = map (block_name (pre_of c)) (ids_of (jblocks o c));
  cf_returns : NoDup (cl_return g);
  cf_start : exists s, jentry o c = Some s /\ cl_start g = Some (block_name (pre_of c) s);
  cf_block : forall x k, lookup x (cl_blocks g) = Some k -> exists z b, x = block_name (pre_of c) z /\ jblock_at o c z = Some b /\ image (pre_of c) (im c) b k /\ (cb_cond k <> None -> cb_type k = "conditional");
  cf_image : forall z b, jblock_at o c z = Some b -> exists k, lookup (block_name (pre_of c) z) (cl_blocks g) = Some k /\ image (pre_of c) (im c) b k /\ (cb_cond k <> None -> cb_type k = "conditional")
}.
Lemma comes c g : component ob c g -> come_from c g.
Proof.
  intros C. destruct (components_parsed builtin keys name o OK) as (ob0 & E & _ & H). rewrite P in E. injection E as <-. destruct (H c g C) as (Kc & g0 & R & Eg).
  destruct (component_from builtin keys name o OK PF c g0 Kc R) as ((_ & K & N) & B). rewrite <- Eg in *.
  assert (Bl : forall x k, lookup x (cl_blocks g) = Some k -> exists z b, x = block_name (pre_of c) z /\ jblock_at o c z = Some b /\ image (pre_of c) (im c) b k /\ (cb_cond k <> None -> cb_type k = "conditional")).
  { intros x k L. destruct (B x k L) as (z & b & H1 & H2 & H3 & H4 & _). exists z, b. auto. }
  constructor; [exact Kc|exact K|exact N| |exact Bl|].
  - destruct (object_parsed builtin keys name o OK) as (ob0 & E & F & _). rewrite P in E. injection E as <-. destruct (F c Kc) as (g1 & B1 & S & _). apply component_blocks in C. rewrite C in B1. injection B1 as <-. exact S.
  - intros z b Hb. assert (I : In (block_name (pre_of c) z) (map fst (cl_blocks g))). { rewrite K. apply in_map. destruct (block_good builtin keys fnames o c (known_ok builtin keys o OK c Kc) z b Hb) as [_ Id]. unfold jblock_at in Hb. apply find_some in Hb as [Hb _]. eapply find_ids; eassumption. }
    apply key_lookup in I as (k & L). exists k. split; [exact L|]. destruct (Bl _ _ L) as (z' & b' & E1 & E2 & E3 & E4). apply block_name_inj in E1. subst z'. rewrite Hb in E2. injection E2 as <-. auto.
Qed.

(** ** Edges *)
Lemma next_same c b k e : image (pre_of c) (im c) b k -> js_exit b = Some e -> forall y, In y (successors k) <-> exists t, y = block_name (pre_of c) t /\ In t (continues e).
Proof.
  intros [(e' & X & Ei & _) _] X' y. rewrite X in X'. injection X' as ->. unfold CfgModel.successors, continues.
  destruct Ei as [t T N _ J Fl|f t v T N0 N1 _ _ _ J Fl|T _ J Fl|t T In_ _ J Fl|vs T _ _ J Fl]; rewrite J, Fl, T; cbn [opt_list app].
  - cbn. destruct (jx_targets e) as [|t0 ts]; [discriminate|]. injection N as ->. cbn. split; [intros [<-|[]]; eauto|intros (u & -> & [<-|[]]); auto].
  - cbn. destruct (jx_targets e) as [|f0 [|t0 ts]]; try discriminate. injection N0 as ->. injection N1 as ->. cbn. split; [intros [<-|[<-|[]]]; eauto|intros (u & -> & [<-|[<-|[]]]); auto].
  - cbn. split; [intros []|intros (u & _ & [])].
  - destruct In_ as [<-|[<-|[]]]; (split; [intros []|intros (u & _ & [])]).
  - split; [intros []|intros (u & _ & [])].
Qed.
Lemma no_next c b k e : image (pre_of c) (im c) b k -> js_exit b = Some e -> (successors k = [] <-> continues e = []).
Proof.
  intros Im X. pose proof (next_same c b k e Im X) as H. split; intros E.
  - destruct (continues e) as [|t l]; [reflexivity|]. exfalso. assert (Q : In (block_name (pre_of c) t) (successors k)) by (apply H; exists t; split; [reflexivity|left; reflexivity]). rewrite E in Q. destruct Q.
  - destruct (successors k) as [|t l]; [reflexivity|]. exfalso. destruct (proj1 (H t) (or_introl eq_refl)) as (u & _ & Q). rewrite E in Q. destruct Q.
Qed.
Lemma edge_same c g x y : component ob c g -> (edge g x y <-> exists z t, x = block_name (pre_of c) z /\ y = block_name (pre_of c) t /\ jedge o c z t).
Proof.
  intros C. pose proof (comes c g C) as CF. split.
  - intros (k & L & H). destruct (cf_block _ _ CF _ _ L) as (z & b & -> & B & Im & _). pose proof Im as [(e & X & _ & _) _].
    assert (S : In y (successors k)) by (unfold CfgModel.successors; apply in_app_iff; destruct H as [-> | ->]; cbn; auto). apply (next_same c b k e Im X) in S as (t & -> & It). exists z, t. split; [reflexivity|]. split; [reflexivity|]. exists b, e. auto.
  - intros (z & t & -> & -> & (b & e & B & X & It)). destruct (cf_image _ _ CF z b B) as (k & L & Im & _). exists k. split; [exact L|].
    assert (S : In (block_name (pre_of c) t) (successors k)) by (apply (next_same c b k e Im X); eauto). unfold CfgModel.successors in S. apply in_app_iff in S. destruct (cb_jump_to k), (cb_falls_to k); cbn in S; intuition congruence.
Qed.
Lemma alone_same c g x y : component ob c g -> alone g x y -> exists z t, x = block_name (pre_of c) z /\ y = block_name (pre_of c) t /\ jalone o c z t.
Proof.
  intros C (E & A1 & A2). apply (edge_same c g _ _ C) in E as (z & t & -> & -> & J). exists z, t. split; [reflexivity|]. split; [reflexivity|]. split; [exact J|]. split.
  - intros u Ju. apply (block_name_inj (pre_of c)). apply A1. apply (edge_same c g _ _ C). eauto.
  - intros u Ju. apply (block_name_inj (pre_of c)). apply A2. apply (edge_same c g _ _ C). eauto.
Qed.
Lemma returns_same f k : lookup f (ob_functions ob) = Some k -> (cl_return (fn_blocks k) <> [] <-> jreturns o f).
Proof.
  intros L. assert (C : component ob (Some f) (fn_blocks k)) by (exists k; auto). pose proof (comes _ _ C) as CF. pose proof (oo_consistent _ object_fine _ _ C) as CN. split.
  - intros N. destruct (cl_return (fn_blocks k)) as [|x l] eqn:E; [contradiction|]. assert (I : In x (cl_return (fn_blocks k))) by (rewrite E; left; reflexivity).
    apply (c_return _ CN) in I as (kb & Lk & [T|[]]). destruct (cf_block _ _ CF _ _ Lk) as (z & b & _ & B & [(e & X & Ei & _) _] & _). exists z, b, e. split; [exact B|]. split; [exact X|].
    destruct Ei as [? ? ? T'|? ? ? ? ? ? ? T'|? T'|? ? ? T'|vs Te _ T']; try congruence. cbn in T'. intuition congruence.
  - intros (z & b & e & B & X & T) E. destruct (cf_image _ _ CF z b B) as (kb & Lk & [(e' & X' & Ei & _) _] & _). rewrite X in X'. injection X' as <-.
    assert (I : In (block_name f z) (cl_return (fn_blocks k))) by (apply (c_return _ CN); exists kb; split; [exact Lk|]; destruct Ei as [? T'|? ? ? T'|T'|? T' In_|vs Te _ T']; try congruence; [rewrite T in T'; injection T' as <-; cbn in In_; intuition discriminate|rewrite T'; left; reflexivity]).
    rewrite E in I. destruct I.
Qed.
Lemma returning f : In f fnames -> (return_name ob (Some f) <> None <-> jreturns o f).
Proof.
  intros If. rewrite <- functions_same in If. apply key_lookup in If as (k & L). rewrite <- (returns_same f k L). unfold return_name. rewrite L. destruct (cl_return (fn_blocks k)); split; intros H; try congruence; discriminate.
Qed.

(** ** Instructions *)
Lemma ending_cases e : (ending e = [] /\ jx_type e <> Some "FunctionReturn") \/ (jx_type e = Some "FunctionReturn" /\ ending e = [{| li_op := "functionReturn"; li_ins := listed (jx_returns e); li_outs := []; li_lits := None |}]).
Proof. unfold ending. destruct (jx_type e) as [t|]; [|left; split; [reflexivity|discriminate]]. destruct (String.eqb_spec t "FunctionReturn") as [->|N]; [right; auto|left; split; [reflexivity|congruence]]. Qed.
Definition the_return (e : jexit) : linstr := {| li_op := "functionReturn"; li_ins := listed (jx_returns e); li_outs := []; li_lits := None |}.
Lemma im_return c e : im c (the_return e) = the_return e.
Proof. unfold image_of, rewritten. clear. destruct builtin; reflexivity. Qed.
Lemma ins_same c i x : In x (li_ins (im c (plain i))) <-> In x (listed (ji_in i)).
Proof. rewrite (proj1 (image_io builtin keys name o OK c (plain i))). cbn [plain li_ins]. destruct (String.eqb _ _); [tauto|]. unfold operands. rewrite <- in_rev. tauto. Qed.
Lemma ins_length c i : length (li_ins (im c (plain i))) = length (listed (ji_in i)).
Proof. rewrite (proj1 (image_io builtin keys name o OK c (plain i))). cbn [plain li_ins]. destruct (String.eqb _ _); [reflexivity|]. apply rev_length. Qed.
Lemma outs_same c i : li_outs (im c (plain i)) = results i.
Proof. exact (proj2 (image_io builtin keys name o OK c (plain i))). Qed.
Lemma call_same c i : In (li_op (im c (plain i))) fnames -> li_op (im c (plain i)) = operation i /\ In (operation i) fnames.
Proof. intros H. pose proof (image_function builtin keys name o OK c (plain i) H) as E. cbn [plain li_op] in E. rewrite E in H. auto. Qed.
Lemma return_not_function : ~ In "functionReturn" fnames.
Proof. intros H. apply (proj2 (jk_names _ _ _ OK) _ H). cbn. auto. Qed.
(** An instruction of a parsed block. *)
Lemma instr_from c b k e i : image (pre_of c) (im c) b k -> js_exit b = Some e -> In i (cb_instrs k) -> (exists j, In j (jinstrs b) /\ i = im c (plain j)) \/ (jx_type e = Some "FunctionReturn" /\ i = the_return e).
Proof.
  intros [(e' & X & _ & Is) _] X' H. rewrite X in X'. injection X' as ->. rewrite Is in H. apply in_map_iff in H as (i0 & <- & H). apply in_app_iff in H as [H|H].
  - left. apply in_map_iff in H as (j & <- & Ij). eauto.
  - destruct (ending_cases e) as [[E _]|[T E]]; rewrite E in H; [destruct H|]. destruct H as [<-|[]]. right. split; [exact T|apply im_return].
Qed.
(** The last one, if it is a call. *)
Lemma split_from c b k e p i q : image (pre_of c) (im c) b k -> js_exit b = Some e -> cb_instrs k = p ++ i :: q -> In (li_op i) fnames ->
  exists p0 j q0, jinstrs b = p0 ++ j :: q0 /\ i = im c (plain j) /\ q = map (im c) (map plain q0 ++ ending e).
Proof.
  intros [(e' & X & _ & Is) _] X' H Hf. rewrite X in X'. injection X' as ->. rewrite H in Is. clear H. revert p Is. induction (jinstrs b) as [|a l IH]; intros p Is; cbn [map app] in Is.
  - exfalso. destruct (ending_cases e) as [[E _]|[_ E]]; rewrite E in Is; [destruct p; discriminate|]. fold (the_return e) in Is. cbn [map] in Is. rewrite im_return in Is. destruct p as [|? p]; [injection Is as -> _; exact (return_not_function Hf)|destruct p; discriminate].
  - destruct p as [|p1 p]; cbn [app] in Is; injection Is as E1 E2.
    + exists [], a, l. auto.
    + destruct (IH p E2) as (p0 & j & q0 & -> & H1 & H2). exists (a :: p0), j, q0. auto.
Qed.
Lemma empty_same c b k e : image (pre_of c) (im c) b k -> js_exit b = Some e -> cb_instrs k = [] -> jinstrs b = [] /\ jx_type e <> Some "FunctionReturn".
Proof.
  intros [(e' & X & _ & Is) _] X' H. rewrite X in X'. injection X' as ->. rewrite H in Is. symmetry in Is. apply map_eq_nil in Is. apply app_eq_nil in Is as [I1 I2]. split; [eapply map_eq_nil; exact I1|].
  destruct (ending_cases e) as [[_ N]|[_ E]]; [exact N|]. rewrite E in I2. discriminate.
Qed.
Lemma return_type c b k e : image (pre_of c) (im c) b k -> js_exit b = Some e -> (cb_type k = "FunctionReturn" <-> jx_type e = Some "FunctionReturn").
Proof.
  intros [(e' & X & Ei & _) _] X'. rewrite X in X'. injection X' as ->. destruct Ei as [? T _ T'|? ? ? T _ _ _ T'|T T'|? T In_ T'|vs T _ T']; rewrite T; try rewrite T'; split; intros Q; try congruence; try discriminate.
  - cbn in T'. intuition congruence.
  - injection Q as ->. cbn in In_. intuition discriminate.
Qed.
Lemma cond_type c b k e : image (pre_of c) (im c) b k -> js_exit b = Some e -> cb_type k = "conditional" -> jx_type e = Some "ConditionalJump" /\ cb_cond k = jx_cond e /\ length (successors k) = 2.
Proof.
  intros [(e' & X & Ei & _) _] X' Q. rewrite X in X'. injection X' as ->. destruct Ei as [? T _ T'|? ? ? T _ _ C T' C' J Fl|T T'|? T In_ T'|vs T _ T']; try congruence; [|cbn in T'; intuition congruence].
  split; [exact T|]. split; [congruence|]. unfold CfgModel.successors. rewrite J, Fl. reflexivity.
Qed.
Lemma exit_type c b k e : image (pre_of c) (im c) b k -> js_exit b = Some e -> cb_type k = "mainExit" \/ successors k = [] -> continues e = [].
Proof.
  intros Im X [T|S]; [|apply (no_next c b k e Im X); exact S]. pose proof Im as [(e' & X' & Ei & _) _]. rewrite X in X'. injection X' as <-. unfold continues.
  destruct Ei as [? T0 _ T'|? ? ? T0 _ _ C T'|T0 T'|? T0 In_ T'|vs T0 _ T']; try congruence; rewrite T0; try reflexivity. destruct In_ as [<-|[<-|[]]]; reflexivity.
Qed.

(** ** Paths *)
Lemma phis_same c z b k e : known o c -> jblock_at o c z = Some b -> image (pre_of c) (im c) b k -> js_exit b = Some e -> exists phis rest, jphis (jinstrs b) = (phis, rest) /\ jinstrs b = phis ++ rest
  /\ phis_of (cb_instrs k) = (map (fun i => im c (plain i)) phis, map (im c) (map plain rest ++ ending e)) /\ forall i, In i phis -> operation i = "PhiFunction".
Proof.
  intros Kc B [(e' & X' & _ & Is) _] X. rewrite X in X'. injection X' as <-. destruct (block_good builtin keys fnames o c (known_ok builtin keys o OK c Kc) z b B) as [[_ _ (phis & rest & Hi & P1 & P2 & _) _] _].
  exists phis, rest. assert (J : jinstrs b = phis ++ rest) by (unfold jinstrs; rewrite Hi; reflexivity). rewrite Is, J. split; [apply jphis_split; assumption|]. split; [reflexivity|]. split; [apply phis_of_split; assumption|].
  intros i Hin. rewrite Forall_forall in P1. apply P1. exact Hin.
Qed.
Lemma point_from c g X x rest' : component ob c g -> reached_without g X x rest' -> exists b blk e, x = block_name (pre_of c) b /\ jblock_at o c b = Some blk /\ js_exit blk = Some e
  /\ ((exists rest, jpoint o c X b rest /\ rest' = map (im c) (map plain rest ++ ending e)) \/ (rest' = [] /\ jx_type e = Some "FunctionReturn")).
Proof.
  intros C H. pose proof (comes c g C) as CF. induction H as [s k rest S L Ph|x i rest H IH N|x k y k' ps rest H IH L In_ L' Ph N].
  - destruct (cf_block _ _ CF _ _ L) as (z & b & -> & B & Im & _). pose proof Im as [(e & X0 & _ & _) _]. exists z, b, e. split; [reflexivity|]. split; [exact B|]. split; [exact X0|]. left.
    destruct (phis_same c z b k e (cf_known _ _ CF) B Im X0) as (phis & rest0 & J & _ & Q & _). rewrite Ph in Q. injection Q as Q1 Q2. destruct phis; [|discriminate]. exists rest0. split; [|exact Q2].
    destruct (cf_start _ _ CF) as (s & E & S'). rewrite S in S'. injection S' as S'. apply block_name_inj in S'. subst z. eapply jp_start; eassumption.
  - destruct IH as (b & blk & e & -> & B & X0 & IH). exists b, blk, e. split; [reflexivity|]. split; [exact B|]. split; [exact X0|]. destruct IH as [(rest0 & J & E)|[E _]]; [|discriminate].
    destruct rest0 as [|j rest0]; cbn [map app] in E.
    + right. destruct (ending_cases e) as [[Q _]|[T Q]]; rewrite Q in E; [discriminate|]. injection E as _ ->. auto.
    + left. injection E as -> ->. exists rest0. split; [|reflexivity]. eapply jp_instr; [exact J|]. intros v Hv. rewrite <- (outs_same c j). apply N. exact Hv.
  - destruct IH as (b & blk & e & -> & B & X0 & IH). destruct (cf_image _ _ CF b blk B) as (k1 & L1 & Im1 & _). rewrite L in L1. injection L1 as <-.
    apply (next_same c blk k e Im1 X0) in In_ as (t & -> & It). destruct (cf_block _ _ CF _ _ L') as (t' & b' & Et & B' & Im' & _). apply block_name_inj in Et. subst t'. pose proof Im' as [(e' & X' & _ & _) _].
    exists t, b', e'. split; [reflexivity|]. split; [exact B'|]. split; [exact X'|]. left. destruct (phis_same c t b' k' e' (cf_known _ _ CF) B' Im' X') as (phis & rest0 & J & _ & Q & _). rewrite Ph in Q. injection Q as -> ->. exists rest0. split; [|reflexivity].
    destruct IH as [(r & Jp & E)|[_ T]]; [|unfold continues in It; rewrite T in It; destruct It]. destruct r as [|? ?]; [|discriminate]. eapply jp_edge; [exact Jp|exists blk, e; eauto|exact B'|exact J|].
    intros v Hv. rewrite <- (phi_outs_same builtin keys name o OK c phis). apply N. exact Hv.
Qed.
Lemma reads_from c x : reads_at ob c x -> known o c /\ jreads o c x.
Proof.
  intros (b' & k & B & H). unfold block_at in B. destruct (blocks_at ob c) as [g|] eqn:G; [|discriminate]. apply component_blocks in G. pose proof (comes c g G) as CF. split; [exact (cf_known _ _ CF)|].
  destruct (cf_block _ _ CF _ _ B) as (z & b & -> & Bz & Im & Cd). pose proof Im as [(e & X & _ & _) _]. exists z, b, e. split; [exact Bz|]. split; [exact X|]. destruct H as [(i & Hi & Hx)|Hc].
  - destruct (instr_from c b k e i Im X Hi) as [(j & Ij & ->)|[T ->]]; [left; exists j; split; [exact Ij|]; apply (ins_same c j x); exact Hx|right; right; split; [exact T|exact Hx]].
  - right. left. destruct (cond_type c b k e Im X) as (T & E & _); [apply Cd; congruence|]. split; [exact T|congruence].
Qed.
Lemma arguments_same c g x : component ob c g -> In x (arguments ob c) <-> In x (jargs o c).
Proof.
  intros C. pose proof (comes c g C) as CF. destruct c as [f|]; [|cbn; tauto]. cbn [arguments jargs]. destruct C as (k & L & _). rewrite L. destruct (function_args f k L) as (k0 & L0 & ->). rewrite L0. rewrite <- in_rev. tauto.
Qed.
Lemma defines_from c x : defines_at ob c x -> known o c /\ jdefines o c x.
Proof.
  intros [(f & k & -> & L & H)|(b' & k & i & B & Hi & Hx)].
  - assert (C : component ob (Some f) (fn_blocks k)) by (exists k; auto). split; [exact (cf_known _ _ (comes _ _ C))|]. left. apply (arguments_same (Some f) (fn_blocks k) x C). cbn. rewrite L. exact H.
  - unfold block_at in B. destruct (blocks_at ob c) as [g|] eqn:G; [|discriminate]. apply component_blocks in G. pose proof (comes c g G) as CF. split; [exact (cf_known _ _ CF)|].
    destruct (cf_block _ _ CF _ _ B) as (z & b & -> & Bz & Im & _). pose proof Im as [(e & X & _ & _) _]. right. destruct (instr_from c b k e i Im X Hi) as [(j & Ij & ->)|[T ->]]; [|destruct Hx]. exists z, b, j. rewrite (outs_same c j) in Hx. auto.
Qed.
Lemma defines_to c g x : component ob c g -> jdefines o c x -> defines_at ob c x.
Proof.
  intros C H. pose proof (comes c g C) as CF. destruct H as [H|(z & b & i & B & Hi & Hx)].
  - apply (arguments_same c g x C) in H. left. destruct c as [f|]; [|destruct H]. cbn in H. destruct (lookup f (ob_functions ob)) as [k|] eqn:L; [|destruct H]. exists f, k. auto.
  - destruct (cf_image _ _ CF z b B) as (k & L & [(e & X & _ & Is) _] & _). right. exists (block_name (pre_of c) z), k, (im c (plain i)). split; [unfold block_at; apply component_blocks in C; rewrite C; exact L|].
    split; [rewrite Is; apply in_map; apply in_app_iff; left; apply in_map; exact Hi|rewrite (outs_same c i); exact Hx].
Qed.
Lemma results_same c g : component ob c g -> ObjSsaSpec.results g = flat_map (fun b => flat_map ParseSpec.results (jinstrs b)) (jblocks o c).
Proof.
  intros C. pose proof (comes c g C) as CF. pose proof (c_keys _ (oo_consistent _ object_fine _ _ C)) as ND. unfold ObjSsaSpec.results.
  assert (F : forall kb b z, In kb (cl_blocks g) -> fst kb = block_name (pre_of c) z -> jblock_at o c z = Some b -> flat_map li_outs (cb_instrs (snd kb)) = flat_map ParseSpec.results (jinstrs b)).
  { intros [x k] b z I E B. cbn [fst snd] in *. destruct (cf_image _ _ CF z b B) as (k' & L & [(e & _ & _ & Is) _] & _). rewrite <- E in L. rewrite (In_lookup _ _ _ ND I) in L. injection L as <-. rewrite Is, map_app, flat_map_app.
    assert (E2 : flat_map li_outs (map (im c) (ending e)) = []) by (destruct (ending_cases e) as [[Q _]|[_ Q]]; rewrite Q; [reflexivity|]; fold (the_return e); cbn [map flat_map]; rewrite im_return; reflexivity).
    rewrite E2, app_nil_r, map_map. apply (phi_outs_same builtin keys name o OK). }
  pose proof (cf_keys _ _ CF) as K. assert (Bk : forall b, In b (jblocks o c) -> exists z, jblock_at o c z = Some b /\ js_id b = Some z) by (intros b; apply (block_in builtin keys fnames o c (known_ok builtin keys o OK c (cf_known _ _ CF)))).
  clear ND. revert F K Bk. generalize (cl_blocks g). generalize (jblocks o c). intros bs. induction bs as [|b bs IH]; intros l F K Bk.
  - destruct l; [reflexivity|discriminate].
  - destruct (Bk b (or_introl eq_refl)) as (z & B & Id). unfold ids_of in K. cbn [flat_map] in K. rewrite Id in K. cbn [app map] in K. destruct l as [|kb l]; [discriminate|]. cbn [map] in K. injection K as K1 K2. cbn [flat_map].
    rewrite (F kb b z (or_introl eq_refl) K1 B). f_equal. apply IH; [intros kb' b' z' I; apply F; right; exact I|exact K2|intros b' I; apply Bk; right; exact I].
Qed.

(** ** Layout *)
Lemma runs_out_from c g x : component ob c g -> runs_out g x -> exists z, x = block_name (pre_of c) z /\ jruns_out o c z.
Proof.
  intros C H. pose proof (comes c g C) as CF. induction H as [x k L E T|x k y L E Ed H (t & -> & J)].
  - destruct (cf_block _ _ CF _ _ L) as (z & b & -> & B & Im & _). pose proof Im as [(e & X & _ & _) _]. exists z. split; [reflexivity|]. destruct (empty_same c b k e Im X E) as (J & N). eapply jo_here; [exact B|exact J|exact X| |exact N]. eapply exit_type; eassumption.
  - destruct (cf_block _ _ CF _ _ L) as (z & b & -> & B & Im & _). pose proof Im as [(e & X & _ & _) _]. exists z. split; [reflexivity|]. apply (edge_same c g _ _ C) in Ed as (z' & t' & Ez & Et & Je). apply block_name_inj in Ez, Et. subst z' t'.
    eapply jo_later; [exact B|exact (proj1 (empty_same c b k e Im X E))|exact Je|exact J].
Qed.
Lemma layout_fine : laid_out ob.
Proof.
  constructor.
  - intros c g x k C L N. pose proof (comes c g C) as CF. destruct (cf_block _ _ CF _ _ L) as (z & b & -> & B & Im & Cd). pose proof Im as [(e & X & _ & _) _]. exact (proj2 (proj2 (cond_type c b k e Im X (Cd N)))).
  - intros c g C s x S E. pose proof (comes c g C) as CF. destruct (cf_start _ _ CF) as (s0 & Es & S'). rewrite S in S'. injection S' as ->. apply (edge_same c g _ _ C) in E as (z & t & -> & Et & J). apply block_name_inj in Et. subst t.
    exact (sc_start _ _ (SF c (cf_known _ _ CF)) s0 z Es J).
  - intros c g C a b H E. pose proof (comes c g C) as CF.
    assert (T : exists a0 b0, a = block_name (pre_of c) a0 /\ b = block_name (pre_of c) b0 /\ clos_trans string (jalone o c) a0 b0).
    { clear E. induction H as [a b A|a b d H1 (a0 & b0 & E1 & E2 & T1) H2 (b1 & d0 & E3 & E4 & T2)].
      - apply (alone_same c g _ _ C) in A as (z & t & E1 & E2 & J). exists z, t. split; [exact E1|]. split; [exact E2|]. apply t_step. exact J.
      - rewrite E2 in E3. apply block_name_inj in E3. subst b1. exists a0, d0. split; [exact E1|]. split; [exact E4|]. eapply t_trans; eassumption. }
    destruct T as (a0 & b0 & -> & -> & T). apply (edge_same c g _ _ C) in E as (z & t & Ez & Et & J). apply block_name_inj in Ez, Et. subst z t. exact (sc_chain _ _ (SF c (cf_known _ _ CF)) a0 b0 T J).
  - intros c g C x k L. pose proof (comes c g C) as CF. destruct (cf_block _ _ CF _ _ L) as (z & b & -> & B & Im & Cd). pose proof Im as [(e & X & Ei & _) _]. split.
    + intros T. apply (no_next c b k e Im X). eapply exit_type; [exact Im|exact X|left; exact T].
    + intros T. pose proof (proj2 (proj2 (cond_type c b k e Im X T))) as Q. unfold CfgModel.successors in Q. destruct (cb_jump_to k), (cb_falls_to k); try discriminate Q. split; discriminate.
  - intros c g C x k L N i Hi Q. pose proof (comes c g C) as CF. destruct (cf_block _ _ CF _ _ L) as (z & b & -> & B & Im & Cd). pose proof Im as [(e & X & _ & _) En].
    destruct (instr_from c b k e i Im X Hi) as [(j & Ij & ->)|[_ ->]]; [|discriminate]. apply (image_eq builtin keys name o OK) in Q; [|apply not_phi..]. cbn [plain li_op] in Q.
    pose proof (SF c (cf_known _ _ CF)) as SC. destruct (sc_phis _ _ SC z b j B Ij Q) as (_ & G2). pose proof (c_entries _ (oo_consistent _ object_fine _ _ C) _ _ L) as Inc. rewrite En in Inc.
    apply NoDup_incl_length in Inc; [rewrite map_length in Inc; lia|]. apply FinFun.Injective_map_NoDup; [intros u v; apply block_name_inj|exact (sc_entries _ _ SC z b B)].
  - intros c g x k i C L Hi Lv. pose proof (comes c g C) as CF. destruct (cf_block _ _ CF _ _ L) as (z & b & -> & B & Im & Cd). pose proof Im as [(e & X & Ei & _) _]. apply in_split in Hi as (p & q & Hi).
    destruct (oo_leaving _ object_fine c g _ k p i q C L Hi Lv) as (_ & N & _). apply (no_next c b k e Im X). unfold continues.
    destruct Ei as [? T _ T'|? ? ? T _ _ _ T'|T T'|? T In_ T'|vs T _ T']; try (exfalso; apply N; rewrite T'; cbn; tauto); rewrite T; try reflexivity. destruct In_ as [<-|[<-|[]]]; reflexivity.
  - intros c g x k p i y C L E Hf Hr Ed Ro. pose proof (comes c g C) as CF. destruct (cf_block _ _ CF _ _ L) as (z & b & -> & B & Im & Cd). pose proof Im as [(e & X & Ei & _) _]. rewrite functions_same in Hf.
    destruct (split_from c b k e p i [] Im X E Hf) as (p0 & j & q0 & J & -> & Q). symmetry in Q. apply map_eq_nil in Q. apply app_eq_nil in Q as [Q _]. apply map_eq_nil in Q. subst q0. destruct (call_same c j Hf) as (Op & Hj). rewrite Op in Hr. apply (returning _ Hj) in Hr.
    apply (runs_out_from c g _ C) in Ro as (t & -> & Ro). apply (edge_same c g _ _ C) in Ed as (z' & t' & Ez & Et & Je). apply block_name_inj in Ez, Et. subst z' t'. exact (sc_calls _ _ (SF c (cf_known _ _ CF)) z b p0 j t B J Hj Hr Je Ro).
  - intros c g x k p i C L T E Hf. pose proof (comes c g C) as CF. destruct (cf_block _ _ CF _ _ L) as (z & b & -> & B & Im & Cd). pose proof Im as [(e & X & Ei & _) _]. rewrite functions_same in Hf.
    destruct (split_from c b k e p i [] Im X E Hf) as (p0 & j & q0 & J & -> & Q). symmetry in Q. apply map_eq_nil in Q. apply app_eq_nil in Q as [Q Q']. apply map_eq_nil in Q. subst q0. destruct (call_same c j Hf) as (Op & Hj). rewrite Op.
    destruct (return_name ob (Some (operation j))) as [r|] eqn:R; [|reflexivity]. exfalso. assert (Hr : jreturns o (operation j)) by (apply (returning _ Hj); congruence).
    refine (sc_last _ _ (SF c (cf_known _ _ CF)) z b e p0 j B X _ _ J Hj Hr); [eapply exit_type; eassumption|]. intros Te. destruct (ending_cases e) as [[_ N]|[_ Q2]]; [contradiction|rewrite Q2 in Q'; discriminate].
  - intros f g x k C L E S. exfalso. pose proof (comes _ g C) as CF. destruct (cf_block _ _ CF _ _ L) as (z & b & -> & B & Im & Cd). pose proof Im as [(e & X & Ei & _) _]. destruct (empty_same _ b k e Im X E) as (J & N).
    apply N. apply (sc_ends _ _ (SF _ (cf_known _ _ CF)) f z b e eq_refl B X J). apply (no_next _ b k e Im X). exact S.
  - intros c x R. destruct (reads_from c x R) as (Kc & J). exact (sc_literals _ _ (SF c Kc) x J).
  - intros c g x k i C L Hi Q. pose proof (comes c g C) as CF. destruct (cf_block _ _ CF _ _ L) as (z & b & -> & B & Im & Cd). pose proof Im as [(e & X & _ & _) _].
    destruct (instr_from c b k e i Im X Hi) as [(j & Ij & ->)|[_ ->]]; [|discriminate]. apply (image_eq builtin keys name o OK) in Q; [|apply not_phi..]. cbn [plain li_op] in Q. rewrite (outs_same c j).
    destruct (block_good builtin keys fnames o c (known_ok builtin keys o OK c (cf_known _ _ CF)) z b B) as [[_ _ (phis & rest & Hb & P1 & P2 & _) _] _]. unfold jinstrs in Ij. rewrite Hb in Ij. rewrite Forall_forall in P1, P2.
    apply in_app_iff in Ij as [Ij|Ij]; [|destruct (P2 j Ij Q)]. destruct (P1 j Ij) as (_ & Ln). destruct (ParseSpec.results j) as [|r [|r' l]]; try discriminate. eauto.
  - intros c g x k i C L Hi Q. pose proof (comes c g C) as CF. destruct (cf_block _ _ CF _ _ L) as (z & b & -> & B & Im & Cd). pose proof Im as [(e & X & _ & _) En].
    destruct (instr_from c b k e i Im X Hi) as [(j & Ij & ->)|[_ ->]]; [|discriminate]. apply (image_eq builtin keys name o OK) in Q; [|apply not_phi..]. cbn [plain li_op] in Q. rewrite ins_length, En, map_length. exact (proj1 (sc_phis _ _ (SF c (cf_known _ _ CF)) z b j B Ij Q)).
  - intros c g x k i C L Hi Q. pose proof (comes c g C) as CF. destruct (cf_block _ _ CF _ _ L) as (z & b & -> & B & Im & Cd). pose proof Im as [(e & X & _ & _) _].
    destruct (instr_from c b k e i Im X Hi) as [(j & Ij & ->)|[_ ->]]; [|discriminate]. apply (image_eq builtin keys name o OK) in Q; [|intros Hq; cbn in Hq; intuition discriminate..]. exact (sc_invalid _ _ (SF c (cf_known _ _ CF)) z b j B Ij Q).
Qed.
Lemma all_reached c g z b k : component ob c g -> jreached o c z -> jblock_at o c z = Some b -> lookup (block_name (pre_of c) z) (cl_blocks g) = Some k -> reached_without g [] (block_name (pre_of c) z) (snd (phis_of (cb_instrs k))).
Proof.
  intros C R. pose proof (comes c g C) as CF. pose proof (SF c (cf_known _ _ CF)) as SC. revert b k. induction R as [s Es|a ba e t R IH Ba Xa It]; intros b k B L.
  - destruct (cf_start _ _ CF) as (s' & Es' & St). rewrite Es in Es'. injection Es' as <-. destruct (cf_block _ _ CF _ _ L) as (z & b' & Ez & B' & Im & _). apply block_name_inj in Ez. subst z. rewrite B in B'. injection B' as <-. pose proof Im as [(e & X & _ & _) _].
    destruct (phis_same c s b k e (cf_known _ _ CF) B Im X) as (phis & rest & J & Ji & Q & Ph). rewrite Q. cbn [snd]. assert (phis = []) as ->.
    { destruct phis as [|p phis]; [reflexivity|]. exfalso. destruct (sc_phis _ _ SC s b p B) as (_ & G2); [rewrite Ji; left; reflexivity|apply Ph; left; reflexivity|]. destruct (js_entries b) as [|y l] eqn:Ey; [cbn in G2; lia|].
      destruct (pc_entries _ _ _ (pf_components _ _ PF c (cf_known _ _ CF)) s b y B) as (b' & e' & B' & X' & I'); [rewrite Ey; left; reflexivity|]. apply (sc_start _ _ SC s y Es). exists b', e'. auto. }
    eapply rw_start; [exact St|exact L|exact Q].
  - destruct (cf_image _ _ CF a ba Ba) as (ka & La & Ima & _). specialize (IH ba ka Ba La).
    assert (Em : forall l x, reached_without g [] x l -> reached_without g [] x []). { induction l as [|i l IHl]; intros x H; [exact H|]. apply IHl. eapply rw_instr; [exact H|]. intros y []. }
    apply Em in IH. destruct (phis_of (cb_instrs k)) as [ps rest] eqn:Ph. cbn [snd]. eapply rw_edge; [exact IH|exact La| |exact L|exact Ph|intros y []]. apply (next_same c ba ka e Ima Xa). eauto.
Qed.
Lemma source_fine : source_ok ob.
Proof.
  constructor.
  - exact object_fine.
  - exact layout_fine.
  - intros c x R N. destruct (reads_from c x R) as (Kc & J). destruct R as (b' & k & B & _). unfold block_at in B. destruct (blocks_at ob c) as [g|] eqn:G; [|discriminate]. apply component_blocks in G.
    apply (defines_to c g x G). exact (sc_scoped _ _ (SF c Kc) x J N).
  - intros c g C. pose proof (comes c g C) as CF. rewrite (results_same c g C). pose proof (sc_once _ _ (SF c (cf_known _ _ CF))) as ND. eapply Permutation_NoDup; [|exact ND]. apply Permutation_app_tail.
    destruct c as [f|]; [|constructor]. cbn [arguments jargs]. destruct C as (k & L & _). rewrite L. destruct (function_args f k L) as (k0 & L0 & ->). rewrite L0. apply Permutation_rev.
  - intros c x D. destruct (defines_from c x D) as (Kc & J). exact (sc_names _ _ (SF c Kc) x J).
  - intros c g x' rest' x C H N Na R. pose proof (comes c g C) as CF. destruct (point_from c g [x] x' rest' C R) as (b & blk & e & -> & B & X & Pt). rewrite (arguments_same c g x C) in Na.
    pose proof (sc_strict _ _ (SF c (cf_known _ _ CF))) as ST. destruct (cf_image _ _ CF b blk B) as (k & L & Im & _). remember (block_name (pre_of c) b) as bb eqn:Eb. destruct H as [bb i rest x H|bb k1 x L1 T1 C1|bb k1 b2 k2 n p x L1 In_ L2 Ix Ip Np].
    + destruct Pt as [(r & Jp & E)|[E _]]; [|discriminate]. destruct r as [|j r]; cbn [map app] in E.
      * destruct (ending_cases e) as [[Q _]|[T Q]]; rewrite Q in E; [discriminate|]. fold (the_return e) in E. cbn [map] in E. rewrite im_return in E. injection E as -> _. refine (ST b [] x _ N Na Jp). eapply jh_return; eassumption.
      * injection E as -> _. refine (ST b (j :: r) x _ N Na Jp). apply jh_instr. apply (ins_same c j x). exact H.
    + rewrite L in L1. injection L1 as <-. destruct (cond_type c blk k e Im X T1) as (T & Ec & _). destruct Pt as [(r & Jp & E)|[_ T']]; [|congruence]. destruct r; [|discriminate]. refine (ST b [] x _ N Na Jp). eapply jh_cond; [exact B|exact X|exact T|congruence].
    + subst bb. rewrite L in L1. injection L1 as <-. apply (next_same c blk k e Im X) in In_ as (t & -> & It). destruct Pt as [(r & Jp & E)|[_ T']]; [|unfold continues in It; rewrite T' in It; destruct It]. destruct r; [|discriminate].
      destruct (cf_block _ _ CF _ _ L2) as (t' & b' & Et & B' & Im' & _). apply block_name_inj in Et. subst t'. pose proof Im' as [(e' & X' & _ & _) En'].
      destruct (phis_same c t b' k2 e' (cf_known _ _ CF) B' Im' X') as (phis & rest & J & _ & Q & Ph). rewrite Q in Ip. cbn [fst] in Ip. apply in_map_iff in Ip as (j & <- & Ij).
      rewrite En', index_of_names in Ix. refine (ST b [] x _ N Na Jp). eapply jh_phi; [exists blk, e; eauto|exact B'|exact Ix|rewrite J; exact Ij|].
      rewrite (proj1 (image_io builtin keys name o OK c (plain j))) in Np. cbn [plain li_ins] in Np. rewrite (Ph j Ij) in Np. exact Np.
  - intros c x k i kf B Hi Lf. unfold block_at in B. destruct (blocks_at ob c) as [g|] eqn:G; [|discriminate]. apply component_blocks in G. pose proof (comes c g G) as CF.
    destruct (cf_block _ _ CF _ _ B) as (z & b & -> & Bz & Im & _). pose proof Im as [(e & X & _ & _) _]. assert (Hf : In (li_op i) fnames) by (rewrite <- functions_same; eapply lookup_In_key; exact Lf).
    destruct (instr_from c b k e i Im X Hi) as [(j & Ij & ->)|[_ ->]]; [|destruct (return_not_function Hf)]. destruct (call_same c j Hf) as (Op & Hj). rewrite Op in Lf |- *. destruct (function_args _ _ Lf) as (k0 & L0 & Ar).
    destruct (sc_arity _ _ (SF c (cf_known _ _ CF)) z b j k0 Bz Ij L0) as (A1 & A2). split; [rewrite Ar, rev_length, ins_length; exact A1|]. intros x' k' r B' Hr Or. rewrite outs_same.
    unfold block_at in B'. destruct (blocks_at ob (Some (operation j))) as [g'|] eqn:G'; [|discriminate]. apply component_blocks in G'. pose proof (comes _ g' G') as CF'. destruct (cf_block _ _ CF' _ _ B') as (z' & b' & -> & Bz' & Im' & _). pose proof Im' as [(e' & X' & _ & _) _].
    destruct (instr_from _ b' k' e' r Im' X' Hr) as [(j' & Ij' & ->)|[T ->]]; [|exact (A2 z' b' e' Bz' X' T)]. exfalso. apply (image_eq builtin keys name o OK) in Or; [|apply not_return..]. cbn [plain li_op] in Or.
    destruct (block_good builtin keys fnames o _ (known_ok builtin keys o OK _ (cf_known _ _ CF')) z' b' Bz') as [[_ _ (phis & rest & Hb & _ & _ & P3) _] _]. rewrite Forall_forall in P3. unfold jinstrs in Ij'. rewrite Hb in Ij'. exact (proj1 (io_names _ _ _ _ (P3 _ Ij')) Or).
  - intros c g C. pose proof (comes c g C) as CF. split; [exact (cf_returns _ _ CF)|]. intros x k Ix L. apply (c_return _ (oo_consistent _ object_fine _ _ C)) in Ix as (k' & L' & [T|[]]). rewrite L in L'. injection L' as <-.
    destruct (cf_block _ _ CF _ _ L) as (z & b & _ & _ & _ & Cd). destruct (cb_cond k); [|reflexivity]. rewrite Cd in T by discriminate. discriminate.
  - intros c x k p i q kf B E Lf Nr. unfold block_at in B. destruct (blocks_at ob c) as [g|] eqn:G; [|discriminate]. apply component_blocks in G. pose proof (comes c g G) as CF.
    destruct (cf_block _ _ CF _ _ B) as (z & b & -> & Bz & Im & _). pose proof Im as [(e & X & _ & _) _]. assert (Hf : In (li_op i) fnames) by (rewrite <- functions_same; eapply lookup_In_key; exact Lf).
    destruct (split_from c b k e p i q Im X E Hf) as (p0 & j & q0 & J & -> & ->). destruct (call_same c j Hf) as (Op & Hj). rewrite Op in Lf. assert (Nj : ~ jreturns o (operation j)) by (intros H; apply (returns_same _ _ Lf) in H; contradiction).
    destruct (sc_stuck _ _ (SF c (cf_known _ _ CF)) z b e p0 j q0 Bz X J Hj Nj) as (-> & Co & Te & Un). split; [destruct (ending_cases e) as [[Q _]|[T _]]; [rewrite Q; reflexivity|contradiction]|]. split; [apply (no_next c b k e Im X); exact Co|].
    intros y Hy R. rewrite outs_same in Hy. exact (Un y Hy (proj2 (reads_from c y R))).
  - intros c g x k C L _. pose proof (comes c g C) as CF. destruct (cf_block _ _ CF _ _ L) as (z & b & -> & B & _). apply (all_reached c g z b k C); [|exact B|exact L]. exact (pc_reached _ _ _ (pf_components _ _ PF c (cf_known _ _ CF)) z b B).
Qed.
End Source.

(** A file as solc writes it is parsed to an object that the passes accept. *)
Theorem parsed_source_ready_partial : forall builtin keys name o, jobject_ok builtin keys o -> plain_file name o -> sound_file o -> exists ob, parse_object builtin keys name o = Ok ob /\ source_ok ob.
Proof.
  intros builtin keys name o OK PF SF. destruct (parsed_object_ready_partial builtin keys name o OK PF) as (ob & E & _). exists ob. split; [exact E|]. exact (source_fine builtin keys name o OK PF SF ob E).
Qed.
Print Assumptions parsed_source_ready_partial.
