(** Inlining all the functions called once. *)
From Verif Require Import Base Lexical UtilModel UtilProps LevelProps LiveModel LiveProps CfgModel CfgSpec CfgProps InlineModel InlineProps
  JumpModel JumpSpec ObjSem ObjSim ObjSplit ObjRenameSpec ObjRename ObjSsaSpec ObjSsa ObjInlineModel ObjDriverSpec ObjInline InlineDriverModel ObjLayoutSpec.
From Verif Require UnifyProps JumpProofs JumpProps.
Open Scope string_scope. Open Scope list_scope.

(** ** Phi functions *)
Lemma phis_of_first l : phis_first l -> without_phis l = snd (phis_of l) /\ number_phis l = length (fst (phis_of l)).
Proof.
  intros (ps & os & -> & P & O). unfold without_phis, number_phis. induction ps as [|p ps IH]; cbn [app].
  - assert (Q : phis_of os = ([], os)). { destruct os as [|o os]; [reflexivity|]. cbn [phis_of]. destruct (String.eqb_spec (li_op o) "PhiFunction") as [Q|]; [elim (O o); [now left|exact Q]|reflexivity]. }
    rewrite Q. cbn [fst snd length]. clear -O. induction os as [|o os IH]; [split; reflexivity|]. cbn [filter]. destruct (String.eqb_spec (li_op o) "PhiFunction") as [Q|]; [elim (O o); [now left|exact Q]|]. cbn [negb].
    destruct IH as (A & B); [intros i I; apply O; now right|]. rewrite A, B. auto.
  - cbn [filter phis_of]. rewrite (P p) by now left. rewrite String.eqb_refl. cbn [negb]. destruct IH as (A & B); [intros i I; apply P; now right|]. destruct (phis_of (ps ++ os)). cbn [fst snd length] in *. now rewrite A, B.
Qed.
Lemma nth_phis l n i : phis_first l -> nth_error l n = Some i -> li_op i <> "PhiFunction" -> exists m, n = length (fst (phis_of l)) + m /\ nth_error (snd (phis_of l)) m = Some i.
Proof.
  intros PF E N. assert (S := phis_of_split l). rewrite S in E. destruct (Nat.lt_ge_cases n (length (fst (phis_of l)))) as [H|H].
  - rewrite nth_error_app1 in E by exact H. apply nth_error_In in E. elim N. revert E. clear. induction l as [|a l IH]; [intros []|]. cbn [phis_of]. destruct (String.eqb_spec (li_op a) "PhiFunction") as [Q|]; [|intros []]. destruct (phis_of l). cbn [fst] in *. intros [ <- |I]; auto.
  - rewrite nth_error_app2 in E by exact H. exists (n - length (fst (phis_of l))). split; [lia|exact E].
Qed.
Lemma phis_nth l m : nth_error l (length (fst (phis_of l)) + m) = nth_error (snd (phis_of l)) m.
Proof. rewrite (phis_of_split l) at 1. rewrite nth_error_app2 by lia. f_equal. lia. Qed.

(** ** The calls *)
Lemma in_calls_from fns c id l : forall n0 e, In e (calls_from fns c id n0 l) <-> exists m i, nth_error l m = Some i /\ In (li_op i) fns /\ e = (li_op i, (n0 + m, id, c)).
Proof.
  induction l as [|i l IH]; intros n0 e; cbn [calls_from]; [split; [intros []|intros ([|m] & i & Q & _); discriminate]|]. rewrite in_app_iff, IH. split.
  - intros [I|(m & j & E & I & ->)]; [|exists (S m), j; split; [exact E|]; split; [exact I|]; do 3 f_equal; lia]. destruct (mem (li_op i) fns) eqn:M; [|destruct I]. destruct I as [ <- |[]]. exists 0, i. split; [reflexivity|]. split; [now apply mem_In|]. do 3 f_equal. lia.
  - intros ([|m] & j & E & I & ->); cbn in E.
    + injection E as ->. left. assert (M : mem (li_op j) fns = true) by now apply mem_In. rewrite M. left. do 3 f_equal. lia.
    + right. exists m, j. split; [exact E|]. split; [exact I|]. do 3 f_equal. lia.
Qed.
Lemma calls_from_once fns c id l : forall n0, NoDup (calls_from fns c id n0 l).
Proof.
  induction l as [|i l IH]; intros n0; cbn [calls_from]; [constructor|]. destruct (mem (li_op i) fns); [|apply IH]. cbn [app]. constructor; [|apply IH]. intros I. apply in_calls_from in I as (m & j & _ & _ & Q). injection Q as _ Q. lia.
Qed.
Lemma NoDup_flat {A B} (h : A -> list B) l : (forall x, In x l -> NoDup (h x)) -> (forall x y b, In x l -> In y l -> In b (h x) -> In b (h y) -> x = y) -> NoDup l -> NoDup (flat_map h l).
Proof.
  induction l as [|a l IH]; intros H1 H2 N; [constructor|]. inversion N as [|? ? N1 N2]; subst. cbn. apply NoDup_app_intro; [apply H1; now left|apply IH; [intros x I; apply H1; now right|intros x y b0 I J; apply H2; now right|exact N2]|].
  intros b0 I J. apply in_flat_map in J as (y & Iy & J). assert (a = y) by (apply (H2 a y b0); [now left|now right|exact I|exact J]). subst y. contradiction.
Qed.
Section Sites.
Variable ob : cobject.
Hypothesis OO : object_ok ob.
Notation fns := (map fst (ob_functions ob)).
Lemma block_component c z blk : block_at ob c z = Some blk <-> exists g, component ob c g /\ lookup z (cl_blocks g) = Some blk.
Proof.
  unfold block_at, blocks_at, component. destruct c as [p|].
  - destruct (lookup p (ob_functions ob)) as [k|]; cbn [option_map]; split.
    + intros L. exists (fn_blocks k). eauto.
    + intros (g & (k0 & Q & <-) & L). now injection Q as <-.
    + discriminate.
    + intros (g & (k0 & Q & _) & _). discriminate.
  - split; [intros L; exists (ob_main ob); auto|]. intros (g & <- & L). exact L.
Qed.
Lemma block_phis c z blk : block_at ob c z = Some blk -> phis_first (cb_instrs blk).
Proof. intros B. apply block_component in B as (g & K & L). exact (oo_phis _ OO _ _ _ _ K L). Qed.
Lemma in_list_calls c g e : component ob c g -> In e (list_calls fns c g) <-> exists id blk n i, lookup id (cl_blocks g) = Some blk /\ nth_error (snd (phis_of (cb_instrs blk))) n = Some i /\ In (li_op i) fns /\ e = (li_op i, (n, id, c)).
Proof.
  intros K. unfold list_calls. rewrite in_flat_map. split.
  - intros ((id & blk) & I & J). cbn [fst snd] in J. apply (JumpProps.dict_In id blk) in I; [|exact (c_keys _ (oo_consistent _ OO _ _ K))]. rewrite (proj1 (phis_of_first _ (oo_phis _ OO _ _ _ _ K I))) in J. apply in_calls_from in J as (m & i & E & M & ->). exists id, blk, m, i. auto.
  - intros (id & blk & n & i & L & E & I & ->). exists (id, blk). split; [now apply lookup_In_pair|]. cbn [fst snd]. rewrite (proj1 (phis_of_first _ (oo_phis _ OO _ _ _ _ K L))). apply in_calls_from. exists n, i. auto.
Qed.
Lemma in_function_calls e : In e (function_calls ob) <-> exists c id blk n i, block_at ob c id = Some blk /\ nth_error (snd (phis_of (cb_instrs blk))) n = Some i /\ In (li_op i) fns /\ e = (li_op i, (n, id, c)).
Proof.
  unfold function_calls. cbn zeta. rewrite in_app_iff, in_flat_map. split.
  - intros [I|((p & k) & I & J)].
    + apply in_list_calls in I as (id & blk & n & i & L & R); [|reflexivity]. exists None, id, blk, n, i. split; [exact L|exact R].
    + cbn [fst snd] in J. apply (JumpProps.dict_In p k) in I; [|exact (oo_functions _ OO)]. apply in_list_calls in J as (id & blk & n & i & L & R); [|exists k; auto]. exists (Some p), id, blk, n, i. split; [|exact R]. apply block_component. exists (fn_blocks k). split; [exists k; auto|exact L].
  - intros (c & id & blk & n & i & B & R). apply block_component in B as (g & K & L). destruct c as [p|]; [right|left].
    + pose proof K as K1. destruct K as (k & Lk & <-). exists (p, k). split; [now apply lookup_In_pair|]. apply in_list_calls; [exact K1|]. exists id, blk, n, i. split; [exact L|exact R].
    + pose proof K as K1. cbn in K. subst g. apply in_list_calls; [exact K1|]. exists id, blk, n, i. split; [exact L|exact R].
Qed.
Lemma list_calls_once c g : component ob c g -> NoDup (list_calls fns c g).
Proof.
  intros K. unfold list_calls. apply NoDup_flat.
  - intros x _. apply calls_from_once.
  - intros (x & bx) (y & by_) e I J A B. cbn [fst snd] in *. apply in_calls_from in A as (? & ? & _ & _ & ->). apply in_calls_from in B as (? & ? & _ & _ & Q). injection Q as _ _ ->.
    pose proof (c_keys _ (oo_consistent _ OO _ _ K)) as N. apply (JumpProps.dict_In _ _ _ N) in I, J. congruence.
  - eapply NoDup_map_inv. exact (c_keys _ (oo_consistent _ OO _ _ K)).
Qed.
Lemma function_calls_once : NoDup (function_calls ob).
Proof.
  unfold function_calls. cbn zeta. apply NoDup_app_intro; [now apply list_calls_once|apply NoDup_flat|].
  - intros (p & k) I. cbn [fst snd]. apply list_calls_once. exists k. split; [|reflexivity]. apply JumpProps.dict_In; [exact (oo_functions _ OO)|exact I].
  - intros (p & k) (q & k2) e I J A B. cbn [fst snd] in *. apply (JumpProps.dict_In _ _ _ (oo_functions _ OO)) in I, J. apply in_list_calls in A as (? & ? & ? & ? & _ & _ & _ & ->); [|exists k; auto]. apply in_list_calls in B as (? & ? & ? & ? & _ & _ & _ & Q); [|exists k2; auto]. injection Q as _ _ _ ->. congruence.
  - eapply NoDup_map_inv. exact (oo_functions _ OO).
  - intros e A B. apply in_list_calls in A as (? & ? & ? & ? & _ & _ & _ & ->); [|reflexivity]. apply in_flat_map in B as ((q & k2) & J & B). cbn [fst snd] in B. apply (JumpProps.dict_In _ _ _ (oo_functions _ OO)) in J. apply in_list_calls in B as (? & ? & ? & ? & _ & _ & _ & Q); [|exists k2; auto]. discriminate.
Qed.
Lemma in_calls_of f n id c : In (n, id, c) (calls_of (function_calls ob) f) <-> In f fns /\ exists blk i, block_at ob c id = Some blk /\ nth_error (snd (phis_of (cb_instrs blk))) n = Some i /\ li_op i = f.
Proof.
  unfold calls_of. split.
  - intros I0. apply in_map_iff in I0 as ((h & s) & E & I). cbn [snd] in E. subst s. apply filter_In in I as (I & Q). cbn [fst] in Q. apply String.eqb_eq in Q. subst h. apply in_function_calls in I as (c1 & id1 & blk & n1 & i & B & E & M & Q). injection Q as -> -> -> ->. split; [exact M|]. exists blk, i. auto.
  - intros (M & blk & i & B & E & O). apply in_map_iff. exists (f, (n, id, c)). split; [reflexivity|]. apply filter_In. split; [|apply String.eqb_refl]. apply in_function_calls. exists c, id, blk, n, i. rewrite O. auto.
Qed.
Lemma calls_of_once f : NoDup (calls_of (function_calls ob) f).
Proof.
  unfold calls_of. assert (N : NoDup (filter (fun e => String.eqb (fst e) f) (function_calls ob))) by apply NoDup_filter, function_calls_once.
  assert (S : forall e, In e (filter (fun e => String.eqb (fst e) f) (function_calls ob)) -> fst e = f) by (intros e I; apply filter_In in I as (_ & Q); now apply String.eqb_eq).
  revert N S. generalize (filter (fun e => String.eqb (fst e) f) (function_calls ob)). induction l as [|e l IH]; intros N S; [constructor|]. inversion N as [|? ? N1 N2]; subst. cbn. constructor; [|apply IH; [exact N2|intros x I; apply S; now right]].
  intros I. apply in_map_iff in I as (e2 & Q & I). assert (F1 := S e (or_introl eq_refl)). assert (F2 := S e2 (or_intror I)). assert (e2 = e) by (destruct e, e2; cbn in *; congruence). subst. contradiction.
Qed.
(** A call of [f] is not a phi function. *)
Lemma site_call f c id n : In f fns -> call_at ob f c id n <-> exists blk m i, block_at ob c id = Some blk /\ n = length (fst (phis_of (cb_instrs blk))) + m /\ nth_error (snd (phis_of (cb_instrs blk))) m = Some i /\ li_op i = f.
Proof.
  intros I. split.
  - intros (blk & i & B & E & O). destruct (nth_phis _ _ _ (block_phis _ _ _ B) E) as (m & -> & E2); [intros Q; apply (oo_reserved _ OO f I); rewrite <- O, Q; cbn; tauto|]. exists blk, m, i. auto.
  - intros (blk & m & i & B & -> & E & O). exists blk, i. rewrite phis_nth. auto.
Qed.
Lemma once_iff f : In f fns -> called_once ob f <-> exists s, calls_of (function_calls ob) f = [s].
Proof.
  intros I. split.
  - intros (_ & c & id & n & C & U). apply (site_call _ _ _ _ I) in C as (blk & m & i & B & -> & E & O). pose proof (calls_of_once f) as N. assert (J : In (m, id, c) (calls_of (function_calls ob) f)) by (apply in_calls_of; eauto 6).
    assert (A : forall s, In s (calls_of (function_calls ob) f) -> s = (m, id, c)).
    { intros [[m2 id2] c2] Is. apply in_calls_of in Is as (_ & blk2 & i2 & B2 & E2 & O2). destruct (U c2 id2 (length (fst (phis_of (cb_instrs blk2))) + m2)) as (-> & -> & Q); [apply (site_call _ _ _ _ I); eauto 8|].
      rewrite B in B2. injection B2 as <-. repeat f_equal. lia. }
    revert N J A. generalize (calls_of (function_calls ob) f). intros [|s [|s2 l]] N J A; [destruct J|eauto|]. inversion N as [|? ? N1 _]; subst. elim N1. rewrite (A s), (A s2); [now left|right; now left|now left].
  - intros ([[m id] c] & E). assert (J : In (m, id, c) (calls_of (function_calls ob) f)) by (rewrite E; now left). apply in_calls_of in J as (_ & blk & i & B & Ei & O). split; [exact I|]. exists c, id, (length (fst (phis_of (cb_instrs blk))) + m). split; [apply (site_call _ _ _ _ I); eauto 8|].
    intros c2 id2 n2 C2. apply (site_call _ _ _ _ I) in C2 as (blk2 & m2 & i2 & B2 & -> & E2 & O2). assert (J2 : In (m2, id2, c2) (calls_of (function_calls ob) f)) by (apply in_calls_of; eauto 6). rewrite E in J2. destruct J2 as [J2|[]]. injection J2 as <- <- <-.
    rewrite B in B2. injection B2 as <-. auto.
Qed.
End Sites.

(** ** The pieces of a block *)
Section Pieces.
Variables (ob : cobject) (c : option string).
(** The pieces do, in this order, what the operations say, except for the calls
    inlined between them. *)
Inductive pieced : list string -> list string -> Prop :=
| pi_last x blk : block_at ob c x = Some blk -> pieced [x] (plain_ops (cb_instrs blk))
| pi_more x blk f ps ops : block_at ob c x = Some blk -> ~ In f (map fst (ob_functions ob)) -> pieced ps ops -> pieced (x :: ps) (plain_ops (cb_instrs blk) ++ f :: ops).
Hypothesis OO : object_ok ob.
Variable g : clist.
Hypothesis K : component ob c g.
Lemma at_component x : block_at ob c x = lookup x (cl_blocks g).
Proof. pose proof K as K0. unfold block_at, blocks_at. destruct c as [p|]; cbn in K0; [destruct K0 as (k & -> & <-); reflexivity|now rewrite K0]. Qed.
Lemma op_nth (l : list linstr) n h : nth_error (map li_op l) n = Some h -> exists i, nth_error l n = Some i /\ li_op i = h.
Proof. rewrite nth_error_map. destruct (nth_error l n) as [i|]; [intros Q; injection Q as <-; eauto|discriminate]. Qed.
Lemma found_piece ps ops : pieced ps ops -> forall n h i0, nth_error ops n = Some h -> In h (map fst (ob_functions ob)) ->
  exists l1 x l2 blk p call, ps = l1 ++ x :: l2 /\ determine_idx i0 n ps g = Ok (i0 + length l1, p) /\ block_at ob c x = Some blk /\ nth_error (cb_instrs blk) p = Some call /\ li_op call = h
  /\ (l1 = [] -> p = n + number_phis (cb_instrs blk)).
Proof.
  induction 1 as [x blk B|x blk f ps ops B NF P IH]; intros n h i0 E I.
  - exists [], x, [], blk, (n + number_phis (cb_instrs blk)). destruct (phis_of_first _ (block_phis ob OO _ _ _ B)) as (W & N). apply op_nth in E as (i & E & O). exists i. cbn [determine_idx]. unfold get_block. rewrite <- at_component, B. cbn [of_option bind]. rewrite W, N.
    assert (H : n < length (snd (phis_of (cb_instrs blk)))) by (apply nth_error_Some; congruence). apply Nat.ltb_lt in H. rewrite H. split; [reflexivity|]. split; [cbn [length]; now rewrite Nat.add_0_r|]. split; [reflexivity|]. split; [rewrite Nat.add_comm, phis_nth; exact E|]. auto.
  - destruct (phis_of_first _ (block_phis ob OO _ _ _ B)) as (W & N). cbn [determine_idx]. unfold get_block. rewrite <- at_component, B. cbn [of_option bind]. rewrite W. assert (LP : length (plain_ops (cb_instrs blk)) = length (snd (phis_of (cb_instrs blk)))) by apply map_length.
    destruct (Nat.ltb_spec n (length (snd (phis_of (cb_instrs blk))))) as [H|H].
    + rewrite nth_error_app1 in E by lia. apply op_nth in E as (i & E & O). exists [], x, ps, blk, (n + number_phis (cb_instrs blk)), i. split; [reflexivity|]. split; [cbn [length]; now rewrite Nat.add_0_r|]. split; [exact B|]. rewrite N. split; [rewrite Nat.add_comm, phis_nth; exact E|]. auto.
    + rewrite nth_error_app2 in E by lia. rewrite LP in E. destruct (Nat.eqb_spec n (length (snd (phis_of (cb_instrs blk))))) as [Q|Q].
      * rewrite Q, Nat.sub_diag in E. cbn in E. injection E as ->. contradiction.
      * destruct (n - length (snd (phis_of (cb_instrs blk)))) as [|n1] eqn:Q1; [lia|]. cbn in E. destruct (IH n1 h (S i0) E I) as (l1 & y & l2 & blk2 & p & call & -> & D & R1 & R2 & R3 & _). exists (x :: l1), y, l2, blk2, p, call.
        split; [reflexivity|]. split; [|split; [exact R1|split; [exact R2|split; [exact R3|discriminate]]]]. replace (n - (length (snd (phis_of (cb_instrs blk))) + 1)) with n1 by lia. rewrite D. do 2 f_equal. cbn [length]. lia.
Qed.
Lemma pieced_some ps ops x : pieced ps ops -> In x ps -> exists blk, block_at ob c x = Some blk.
Proof. induction 1 as [y blk B|y blk f ps ops B NF P IH]; [intros [ <- |[]]; eauto|]. intros [ <- |I]; eauto. Qed.
End Pieces.

Lemma pieced_kept ob ob' c ps ops : pieced ob c ps ops -> (forall h, In h (map fst (ob_functions ob')) -> In h (map fst (ob_functions ob))) ->
  (forall z blk, In z ps -> block_at ob c z = Some blk -> exists blk', block_at ob' c z = Some blk' /\ plain_ops (cb_instrs blk') = plain_ops (cb_instrs blk)) -> pieced ob' c ps ops.
Proof.
  intros P S H. induction P as [x blk B|x blk f ps ops B NF P IH].
  - destruct (H x blk) as (blk' & B' & <-); [now left|exact B|]. now constructor.
  - destruct (H x blk) as (blk' & B' & <-); [now left|exact B|]. constructor; [exact B'|intros I; apply NF; auto|]. apply IH. intros z bz I. apply H. now right.
Qed.
Lemma pieced_split ob ob' c l1 : forall x l2 ops blk b1 b2 f, pieced ob c (l1 ++ x :: l2) ops -> (forall h, In h (map fst (ob_functions ob')) -> In h (map fst (ob_functions ob))) -> ~ In f (map fst (ob_functions ob')) ->
  (forall z bz, In z (l1 ++ l2) -> block_at ob c z = Some bz -> exists blk', block_at ob' c z = Some blk' /\ plain_ops (cb_instrs blk') = plain_ops (cb_instrs bz)) ->
  block_at ob c x = Some blk -> block_at ob' c (first_id x) = Some b1 -> block_at ob' c (second_id x) = Some b2 -> plain_ops (cb_instrs blk) = plain_ops (cb_instrs b1) ++ f :: plain_ops (cb_instrs b2) ->
  pieced ob' c (l1 ++ [first_id x; second_id x] ++ l2) ops.
Proof.
  induction l1 as [|y l1 IH]; intros x l2 ops blk b1 b2 f P S NF H B E1 E2 EO; cbn [app] in *; inversion P as [x0 bx Bx Q1 Q2|x0 bx h ps ops' Bx Nh P' Q1 Q2]; subst.
  - rewrite B in Bx. injection Bx as <-. rewrite EO. constructor; [exact E1|exact NF|]. now constructor.
  - rewrite B in Bx. injection Bx as <-. rewrite EO, <- app_assoc. cbn [app]. constructor; [exact E1|exact NF|]. constructor; [exact E2|intros I; apply Nh; auto|]. eapply pieced_kept; [exact P'|exact S|]. intros z bz I. apply H. exact I.
  - destruct l1; discriminate.
  - destruct (H y bx) as (by_ & By & <-); [now left|exact Bx|]. constructor; [exact By|intros I; apply Nh; auto|]. eapply IH; eauto. intros z bz I. apply H. now right.
Qed.

Lemma carries_refl ob : carries_over ob ob. Proof. intros V W M BO w. split; auto. Qed.
Lemma carries_trans ob1 ob2 ob3 : carries_over ob1 ob2 -> carries_over ob2 ob3 -> carries_over ob1 ob3.
Proof. intros A B V W M BO w. destruct (A V W M BO w) as (A1 & A2). destruct (B V W M BO w) as (B1 & B2). split; auto. Qed.

(** ** A call is the only one *)
Lemma fresh_results ob c id blk p call : object_ok ob -> ssa ob -> calls_ok ob -> block_at ob c id = Some blk -> nth_error (cb_instrs blk) p = Some call -> li_op call <> "PhiFunction" ->
  forall y, In y (li_outs call) -> ~ In y (li_ins call).
Proof.
  intros OO SS CA B E NP y I J. pose proof B as B0. apply block_component in B as (g & K & L). apply nth_error_split in E as (p1 & q & E & _).
  assert (R : reached_without g [] id (snd (phis_of (cb_instrs blk)))) by (eapply (ca_reached _ CA); eauto; left; rewrite E; now destruct p1).
  assert (D : defines_at ob c y) by (right; exists id, blk, call; split; [exact B0|]; split; [rewrite E; apply in_app_iff; right; now left|exact I]).
  assert (NA : ~ In y (arguments ob c)).
  { intros A. pose proof (ssa_once _ SS _ _ K) as N. apply NoDup_parts in N as (_ & N & _). apply (N y A). unfold results. apply in_flat_map. exists (id, blk). split; [now apply lookup_In_pair|]. cbn [snd]. apply in_flat_map. exists call. split; [rewrite E; apply in_app_iff; right; now left|exact I]. }
  apply (ssa_strict _ SS c g id (call :: q) y K); [now constructor|exact (ssa_names _ SS _ _ D)|exact NA|].
  assert (T : reached_without g [] id (call :: q)).
  { assert (E2 : exists p2, snd (phis_of (cb_instrs blk)) = p2 ++ call :: q).
    { assert (S := phis_of_split (cb_instrs blk)). rewrite E in S at 1. assert (O : forall i, In i (fst (phis_of (cb_instrs blk))) -> li_op i = "PhiFunction").
      { clear. induction (cb_instrs blk) as [|a l IH]; [intros i []|]. cbn [phis_of]. destruct (String.eqb_spec (li_op a) "PhiFunction") as [Q|]; [|intros i []]. destruct (phis_of l). cbn [fst] in *. intros i [ <- |I]; auto. }
      revert S O. generalize (fst (phis_of (cb_instrs blk))) (snd (phis_of (cb_instrs blk))). clear -NP. induction p1 as [|a p1 IH]; intros ps os S O.
      - destruct ps as [|x ps]; [exists []; now symmetry|]. injection S as <- _. elim NP. apply O. now left.
      - destruct ps as [|x ps]; [exists (a :: p1); now symmetry|]. injection S as <- S. eapply IH; [exact S|]. intros i I. apply O. now right. }
    destruct E2 as (p2 & E2). rewrite E2 in R. clear -R. revert R. induction p2 as [|a p2 IH]; [auto|]. intros R. apply IH. eapply rw_instr; [exact R|]. intros x []. }
  destruct (before_def ob c g K SS [] y id blk p1 call q L E I NP id (call :: q) T) as [H|H]; exact H.
Qed.
Lemma once_only ob c id p f blk call : object_ok ob -> ssa ob -> calls_ok ob -> called_once ob f -> block_at ob c id = Some blk -> nth_error (cb_instrs blk) p = Some call -> li_op call = f -> c <> Some f ->
  exists k, only_call ob c id p f k call.
Proof.
  intros OO SS CA (IF & c0 & b0 & n0 & _ & U) B E O NC. destruct (lookup f (ob_functions ob)) as [k|] eqn:LF; [|apply lookup_None in LF; contradiction]. exists k.
  assert (I : In call (cb_instrs blk)) by (eapply nth_error_In; eauto). rewrite <- O in LF. destruct (ca_arity _ CA c id blk call k B I LF) as (A1 & A2). rewrite O in LF, A2. constructor; auto.
  - exists blk. auto.
  - intros c' b' blk' n i B' E' O'. destruct (U c id p) as (-> & -> & ->); [exists blk, call; auto|]. apply U. exists blk', i. auto.
  - eapply fresh_results; eauto. intros Q. apply (oo_reserved _ OO f IF). rewrite <- O, Q. cbn. tauto.
  - apply (ca_exits _ CA (Some f)). exists k. auto.
Qed.

(** ** The loop *)
Section Loop.
Variable ob0 : cobject.
Hypothesis OO0 : object_ok ob0.
Notation fns ob := (map fst (ob_functions ob)).
Definition present (ob : cobject) (c : option string) : Prop := match c with None => True | Some p => In p (fns ob) end.
Definition pieces_of (cur : pieces_dict) (b : string) : list string := match lookup b cur with Some l => l | None => [b] end.
Record inv (done : list string) (ob : cobject) (cur : pieces_dict) : Prop := {
  iv_object : object_ok ob;
  iv_ssa : ssa ob;
  iv_calls : calls_ok ob;
  iv_layout : laid_out ob0 -> laid_out ob;
  iv_names : forall c x, defines_at ob c x -> exists c', defines_at ob0 c' x;
  iv_carries : carries_over ob0 ob;
  iv_functions : forall h, In h (fns ob) <-> In h (fns ob0) /\ ~ (In h done /\ called_once ob0 h);
  iv_once : forall h, In h (fns ob) -> called_once ob0 h -> called_once ob h;
  iv_pieces : forall c b blk, block_at ob0 c b = Some blk -> present ob c ->
    NoDup (pieces_of cur b) /\ (forall x, In x (pieces_of cur b) -> JumpProofs.spread b x) /\ pieced ob c (pieces_of cur b) (plain_ops (cb_instrs blk))
}.
Lemma present_component ob c : present ob c -> exists g, component ob c g.
Proof. destruct c as [p|]; [|exists (ob_main ob); reflexivity]. cbn. intros I. destruct (lookup p (ob_functions ob)) as [k|] eqn:L; [exists (fn_blocks k), k; auto|apply lookup_None in L; contradiction]. Qed.
Lemma block_name_at ob c x blk : block_at ob c x = Some blk -> block_name ob c x.
Proof. intros B. apply block_component in B as (g & K & L). exists g. split; [exact K|]. eapply lookup_In_key; eauto. Qed.
Lemma append_ne (x : string) w : w <> ""%string -> x <> (x ++ w)%string.
Proof. intros N Q. revert Q. induction x as [|ch x IH]; intros Q; [cbn in Q; congruence|]. cbn in Q. injection Q as Q. auto. Qed.
Lemma step_once done ob cur f : inv done ob cur -> In f (fns ob0) -> ~ In f done -> called_once ob0 f -> (forall c b n, call_at ob0 f c b n -> present ob c /\ c <> Some f) ->
  exists ob' cur', inline_next (function_calls ob0) (ob, cur) f = Ok (ob', cur') /\ inv (done ++ [f]) ob' cur'.
Proof.
  intros IV IF ND ON PR. destruct IV as [OO SS CA LO NA CO IVF IVO IVP]. assert (IN : In f (fns ob)) by (apply IVF; tauto). assert (ON1 := IVO f IN ON).
  destruct (proj1 (once_iff ob0 OO0 f IF) ON) as ([[n id] c] & CS). assert (IS : In (n, id, c) (calls_of (function_calls ob0) f)) by (rewrite CS; now left). apply (in_calls_of ob0 OO0) in IS as (_ & blk0 & i0 & B0 & E0 & O0).
  assert (C0 : call_at ob0 f c id (length (fst (phis_of (cb_instrs blk0))) + n)) by (apply (site_call ob0 OO0 _ _ _ _ IF); eauto 8). destruct (PR _ _ _ C0) as (PC & NC). destruct (present_component ob c PC) as (g & K).
  destruct (IVP c id blk0 B0 PC) as (PN & PS & PP). assert (EN : nth_error (plain_ops (cb_instrs blk0)) n = Some f) by (unfold plain_ops; rewrite nth_error_map, E0; cbn [option_map]; congruence).
  destruct (found_piece ob c OO g K _ _ PP n f 0 EN IN) as (l1 & x & l2 & blk & p & call & EP & DI & B & NE & OC & P1). assert (L : lookup x (cl_blocks g) = Some blk) by (rewrite <- (at_component ob c g K); exact B).
  destruct (once_only ob c x p f blk call OO SS CA ON1 B NE OC NC) as (k & OCC). pose proof (oc_function _ _ _ _ _ _ _ OCC) as LF.
  destruct (inline_call_keeps ob c x p f k call g blk OO SS OCC K L NE CA) as (ob' & IC & CO' & FL & OO' & SS' & CA' & (LO' & NA') & ON' & OTH & b1 & b2 & BF & BS & EO & _).
  assert (SUB : forall h, In h (fns ob') <-> In h (fns ob) /\ h <> f).
  { intros h. rewrite FL, filter_In. destruct (String.eqb_spec h f); cbn; intuition congruence. }
  exists ob', (dict_set id (l1 ++ [first_id x; second_id x] ++ l2) cur). split.
  - unfold inline_next. rewrite LF. cbn [of_option bind]. rewrite CS. assert (GB : get_block_list ob c = Ok g) by (clear -K; destruct c as [q|]; cbn in *; [destruct K as (k0 & -> & <-); reflexivity|now rewrite K]). rewrite GB. cbn [bind]. fold (pieces_of cur id).
    assert (JP : (if Nat.ltb 1 (length (pieces_of cur id)) then determine_idx 0 n (pieces_of cur id) g else do x0 <- of_option (nth_error (pieces_of cur id) 0); do bx <- get_block x0 g; Ok (0, n + number_phis (cb_instrs bx))) = Ok (length l1, p)).
    { destruct (Nat.ltb_spec 1 (length (pieces_of cur id))) as [H|H]; [exact DI|]. rewrite EP in *. rewrite app_length in H. cbn [length] in H. destruct l1; [|cbn in H; lia]. cbn [app nth_error of_option bind]. unfold get_block. rewrite L. cbn [of_option bind length]. now rewrite (P1 eq_refl). }
    rewrite JP. cbn [bind fst snd]. rewrite EP, nth_error_app2 by lia. rewrite Nat.sub_diag. cbn [nth_error of_option bind]. rewrite IC. cbn [bind]. do 3 f_equal. rewrite firstn_app, Nat.sub_diag, firstn_all. cbn [firstn]. rewrite app_nil_r. f_equal. cbn [app]. do 2 f_equal.
    rewrite skipn_app. rewrite skipn_all2 by lia. replace (length l1 + 1 - length l1) with 1 by lia. reflexivity.
  - constructor; auto.
    + intros c2 y D. apply NA' in D as (c3 & D). eauto.
    + eapply carries_trans; eauto.
    + intros h. rewrite SUB, IVF, in_app_iff. cbn [In]. split; [intuition congruence|]. intros (A & D). destruct (string_dec h f) as [->|NH]; [exfalso; apply D; tauto|]. split; [|exact NH]. split; [exact A|]. tauto.
    + intros h I O. apply SUB in I as (I & NH). auto.
    + intros c2 b2' blk2 B2 PC2.
      assert (PC2' : present ob c2) by (destruct c2; [apply SUB in PC2; tauto|exact PC2]). assert (NC2 : c2 <> Some f) by (intros ->; apply SUB in PC2; tauto). destruct (IVP c2 b2' blk2 B2 PC2') as (PN2 & PS2 & PP2).
      assert (IX : In x (pieces_of cur id)) by (rewrite EP; apply in_app_iff; right; now left).
      assert (FX : forall z, In z (pieces_of cur id) -> z <> first_id x /\ z <> second_id x).
      { intros z I. destruct (pieced_some ob c _ _ z PP I) as (bz & Bz). assert (NB := block_name_at _ _ _ _ B). assert (NZ := block_name_at _ _ _ _ Bz).
        split; intros ->; [destruct (oo_names _ OO c c x (first_id x) "f" NB NZ JumpProofs.fs_f eq_refl) as (Q & _); revert Q; apply append_ne; discriminate|destruct (oo_names _ OO c c x (second_id x) "s" NB NZ JumpProofs.fs_s eq_refl) as (Q & _); revert Q; apply append_ne; discriminate]. }
      unfold pieces_of at 1 2 3. rewrite UnifyProps.lookup_dict_set. destruct (JumpProps.names_apart ob0 OO0 c c2 id b2' (block_name_at _ _ _ _ B0) (block_name_at _ _ _ _ B2)) as [(<- & <-)|AP].
      * rewrite String.eqb_refl. rewrite B0 in B2. injection B2 as <-. clear PN2 PS2 PP2. rewrite EP in *. pose proof (NoDup_remove_1 _ _ _ PN) as N1. pose proof (NoDup_remove_2 _ _ _ PN) as N2. split; [|split].
        -- assert (FX1 := FX x IX). assert (FXO : forall z, In z (l1 ++ l2) -> z <> first_id x /\ z <> second_id x) by (intros z I; apply FX; apply in_app_iff in I as [I|I]; apply in_app_iff; [now left|right; now right]).
           apply NoDup_parts in N1 as (N3 & N4 & N5). apply NoDup_app_intro; [exact N3| |].
           ++ cbn [app]. constructor; [|constructor; [|exact N5]].
              ** intros [Q|I]; [exact (halves_ne x (eq_sym Q))|]. apply (proj1 (FXO _ ltac:(apply in_app_iff; right; exact I))). reflexivity.
              ** intros I. apply (proj2 (FXO _ ltac:(apply in_app_iff; right; exact I))). reflexivity.
           ++ intros z I [Q|[Q|J]]; [apply (proj1 (FXO z ltac:(apply in_app_iff; now left))); now symmetry|apply (proj2 (FXO z ltac:(apply in_app_iff; now left))); now symmetry|exact (N4 z I J)].
        -- intros z I. apply in_app_iff in I as [I|[ <- |[ <- |I]]].
           ++ apply PS. apply in_app_iff. now left.
           ++ eapply JumpProofs.spread_trans; [apply PS; exact IX|apply JumpProofs.spread_first].
           ++ eapply JumpProofs.spread_trans; [apply PS; exact IX|apply JumpProofs.spread_second].
           ++ apply PS. apply in_app_iff. right. now right.
        -- eapply pieced_split; [exact PP|intros h I; apply SUB in I; tauto|intros I; apply SUB in I; tauto| |exact B|exact BF|exact BS|exact EO]. intros z bz I Bz. apply OTH; [|exact NC|exact Bz]. intros (_ & ->). contradiction.
      * assert (NB : id <> b2') by (intros ->; apply (AP b2'); apply JumpProofs.spread_refl). destruct (String.eqb_spec id b2'); [contradiction|]. fold (pieces_of cur b2'). split; [exact PN2|]. split; [exact PS2|].
        eapply pieced_kept; [exact PP2|intros h I; apply SUB in I; tauto|]. intros z bz I Bz. apply OTH; [|exact NC2|exact Bz]. intros (_ & ->). apply (AP x); [apply PS; exact IX|apply PS2; exact I].
Qed.
Lemma step_other done ob cur f : inv done ob cur -> In f (fns ob0) -> ~ called_once ob0 f -> exists ob' cur', inline_next (function_calls ob0) (ob, cur) f = Ok (ob', cur') /\ inv (done ++ [f]) ob' cur'.
Proof.
  intros IV IF NO. exists ob, cur. split.
  - unfold inline_next. assert (IN : In f (fns ob)) by (apply (iv_functions _ _ _ IV); tauto). destruct (lookup f (ob_functions ob)) as [k|] eqn:L; [|apply lookup_None in L; contradiction]. cbn [of_option bind].
    destruct (calls_of (function_calls ob0) f) as [|[[n id] c] [|s l]] eqn:CS; try reflexivity. elim NO. apply (once_iff ob0 OO0 f IF). eauto.
  - destruct IV as [OO SS CA LO NA CO IVF IVO IVP]. constructor; auto. intros h. rewrite IVF, in_app_iff. cbn [In]. split; [|tauto]. intros (A & D). split; [exact A|]. intros ([Dh|[ <- |[]]] & O); tauto.
Qed.
Hypothesis SS0 : ssa ob0.
Hypothesis CA0 : calls_ok ob0.
Lemma inv_start : inv [] ob0 [].
Proof.
  constructor; auto; [eauto|apply carries_refl|tauto|]. intros c b blk B _. unfold pieces_of. cbn [lookup]. split; [constructor; [intros []|constructor]|]. split; [intros x [ <- |[]]; apply JumpProofs.spread_refl|]. now constructor.
Qed.
Lemma loop order : inlining_order ob0 order -> (forall f, called_once ob0 f -> ~ calls ob0 f f) -> forall todo done ob cur, order = done ++ todo -> inv done ob cur ->
  exists ob' cur', for_each (inline_next (function_calls ob0)) todo (ob, cur) = Ok (ob', cur') /\ inv order ob' cur'.
Proof.
  intros IO NR. induction todo as [|f todo IH]; intros done ob cur E IV; [exists ob, cur; rewrite app_nil_r in E; subst; auto|].
  assert (If : In f order) by (rewrite E; apply in_app_iff; right; now left). assert (IF := proj1 (proj1 (io_called _ _ IO f) If)).
  assert (ND : forall x, In x done -> ~ In x (f :: todo)) by (pose proof (io_once _ _ IO) as N; rewrite E in N; apply NoDup_parts in N; tauto).
  assert (ST : exists ob1 cur1, inline_next (function_calls ob0) (ob, cur) f = Ok (ob1, cur1) /\ inv (done ++ [f]) ob1 cur1).
  { assert (DO : called_once ob0 f \/ ~ called_once ob0 f).
    { rewrite (once_iff ob0 OO0 f IF). destruct (calls_of (function_calls ob0) f) as [|s [|s2 l]]; [right; intros (? & Q); discriminate|left; eauto|right; intros (? & Q); discriminate]. }
    destruct DO as [DO|DO]; [|now apply step_other]. apply step_once; auto; [intros I; apply (ND f I); now left|]. intros c b n C. destruct c as [p|]; [|split; [exact I|discriminate]].
    assert (IP : In p (fns ob0)) by (destruct C as (blk & i & B & _); apply block_component in B as (g & (k & L & _) & _); eapply lookup_In_key; eauto). split.
    - cbn. apply (iv_functions _ _ _ IV). split; [exact IP|]. intros (Dp & Op). assert (Io : In p order) by (rewrite E; apply in_app_iff; now left).
      destruct (io_sorted _ _ IO f p b n If Io C) as (l1 & l2 & l3 & Q); [intros Q; apply (NR f DO); eapply calls_trans; [exact Q|]; eapply calls_here; eauto|].
      (* f is before p, but p has been considered *)
      apply List.in_split in Dp as (d1 & d2 & ->). pose proof (io_once _ _ IO) as N. rewrite Q in N. assert (Q2 := E). rewrite Q in Q2. rewrite <- app_assoc in Q2. cbn [app] in Q2.
      assert (U : forall (a1 : list string) a2 e1 e2, NoDup (a1 ++ p :: a2) -> a1 ++ p :: a2 = e1 ++ p :: e2 -> a1 = e1).
      { induction a1 as [|y a1 IHa]; intros a2 e1 e2 Na Ea; destruct e1 as [|z e1]; cbn [app] in Ea; [reflexivity| | |].
        - exfalso. injection Ea as -> ->. inversion Na as [|? ? N1 _]; subst. apply N1. apply in_app_iff. right. now left.
        - exfalso. injection Ea as -> _. cbn [app] in Na. inversion Na as [|? ? N1 _]; subst. apply N1. apply in_app_iff. right. now left.
        - injection Ea as -> Ea. f_equal. cbn [app] in Na. inversion Na as [|? ? N1 N2]; subst. eapply IHa; eauto. }
      replace (l1 ++ f :: l2 ++ p :: l3) with ((l1 ++ f :: l2) ++ p :: l3) in Q2, N by now rewrite <- app_assoc. apply (U _ _ _ _ N) in Q2. apply (ND f); [|now left]. rewrite <- Q2. apply in_app_iff. left. apply in_app_iff. right. now left.
    - intros Q. injection Q as ->. apply (NR f DO). eapply calls_here; eauto. }
  destruct ST as (ob1 & cur1 & E1 & IV1). destruct (IH (done ++ [f]) ob1 cur1) as (ob' & cur' & E2 & IV2); [rewrite <- app_assoc; exact E|exact IV1|]. exists ob', cur'. split; [|exact IV2]. cbn [for_each]. rewrite E1. exact E2.
Qed.
End Loop.
Lemma all_inlined ob order : object_ok ob -> ssa ob -> calls_ok ob -> inlining_order ob order -> (forall f, called_once ob f -> ~ calls ob f f) ->
  exists ob', inline_functions order ob = Ok ob' /\ carries_over ob ob' /\ (forall f, In f (map fst (ob_functions ob')) <-> In f (map fst (ob_functions ob)) /\ ~ called_once ob f)
  /\ object_ok ob' /\ ssa ob' /\ calls_ok ob' /\ (laid_out ob -> laid_out ob') /\ (forall c x, defines_at ob' c x -> exists c', defines_at ob c' x).
Proof.
  intros OO SS CA IO NR. destruct (loop ob OO order IO NR order [] ob [] eq_refl (inv_start ob OO SS CA)) as (ob' & cur' & E & IV). exists ob'. split; [unfold inline_functions; unfold pieces_dict in *; rewrite E; reflexivity|].
  destruct IV as [OO' SS' CA' LO' NA' CO FN _ _]. split; [exact CO|]. split; [|auto]. intros f. rewrite FN. split; intros (I & D); (split; [exact I|]); [|tauto]. intros O. apply D. split; [|exact O].
  apply (io_called _ _ IO). split; [exact I|]. destruct O as (_ & c & b & n & C & _). eauto.
Qed.
