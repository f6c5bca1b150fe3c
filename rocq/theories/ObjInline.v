(** Inlining the only call of a function keeps what the object does. *)
From Coq Require Relations.
From Verif Require Import Base Lexical UtilModel UtilProps LevelProps LiveModel LiveProps CfgModel CfgSpec CfgProps RenameModel RenameProps InlineModel InlineProps
  JumpModel JumpSpec ObjSem ObjSim ObjSplit ObjRenameSpec ObjRename ObjSsaSpec ObjSsa ObjInlineModel ObjDriverSpec InlineReturn.
From Verif Require InlineWalks.
From Verif Require JumpProofs JumpProps.
From Verif Require AsmModel MergePassProps RemoveProps ObjCombineSpec ObjLayoutSpec.
Open Scope string_scope. Open Scope list_scope.

Lemma assign_cases {V} xs : forall (vs : list V) y, (In y xs /\ exists v, forall e, assign e xs vs y = Some v) \/ (forall e, assign e xs vs y = e y).
Proof.
  induction xs as [|x xs IH]; intros [|v vs] y; try (right; reflexivity). destruct (IH vs y) as [(I & v' & H)|H].
  - left. split; [now right|]. cbn [assign]. destruct (String.eqb y x); eauto.
  - cbn [assign]. destruct (String.eqb_spec y x) as [->|]; [left; split; [now left|eauto]|now right].
Qed.
Lemma assign_other {V} xs (vs : list V) y e : ~ In y xs -> assign e xs vs y = e y.
Proof. intros N. destruct (assign_cases xs vs y) as [(I & _)|H]; [contradiction|apply H]. Qed.
Lemma values_nth {V W} (M : words V W) e xs vs : values M e xs = Some vs -> length vs = length xs /\ forall n x, nth_error xs n = Some x -> exists v, nth_error vs n = Some v /\ value M e x = Some v.
Proof.
  revert vs. induction xs as [|x xs IH]; intros vs H; cbn [values] in H; [injection H as <-; split; [reflexivity|intros [|n] x; discriminate]|].
  destruct (value M e x) as [v|] eqn:E; [|discriminate]. destruct (values M e xs) as [vs'|] eqn:E'; [|discriminate]. injection H as <-. destruct (IH vs' eq_refl) as (L & N).
  split; [cbn; congruence|]. intros [|n] y Q; cbn in Q; [injection Q as <-; exists v; auto|]. cbn. eauto.
Qed.
Lemma values_same {V W} (M : words V W) e e' (r : string -> string) xs : (forall x v, In x xs -> value M e x = Some v -> value M e' (r x) = Some v) ->
  forall vs, values M e xs = Some vs -> values M e' (map r xs) = Some vs.
Proof.
  induction xs as [|x xs IH]; intros H vs Q; [exact Q|]. cbn [values map] in *. destruct (value M e x) as [v|] eqn:E; [|discriminate]. rewrite (H x v (or_introl eq_refl) E).
  destruct (values M e xs) as [vs'|]; [|discriminate]. rewrite (IH (fun y v' I => H y v' (or_intror I)) vs' eq_refl). exact Q.
Qed.
Lemma phi_values_same {V W} (M : words V W) e e' (r : dict) k ps : (forall p x v, In p ps -> nth_error (li_ins p) k = Some x -> value M e x = Some v -> value M e' (rename_var r x) = Some v) ->
  forall vs, phi_values M e k ps = Some vs -> phi_values M e' k (map (rename_instr r) ps) = Some vs.
Proof.
  induction ps as [|p ps IH]; intros H vs Q; [exact Q|]. cbn [phi_values map] in *. change (li_ins (rename_instr r p)) with (map (rename_var r) (li_ins p)). rewrite nth_error_map.
  destruct (nth_error (li_ins p) k) as [x|] eqn:E; [|discriminate]. cbn [option_map]. destruct (value M e x) as [v|] eqn:Ev; [|discriminate]. rewrite (H p x v (or_introl eq_refl) E Ev).
  destruct (phi_values M e k ps) as [vs'|]; [|discriminate]. rewrite (IH (fun q y v' I => H q y v' (or_intror I)) vs' eq_refl). exact Q.
Qed.
Lemma assign_zip {V} xs : forall (vs : list V) n x v e, NoDup xs -> nth_error xs n = Some x -> nth_error vs n = Some v -> assign e xs vs x = Some v.
Proof.
  induction xs as [|y xs IH]; intros vs [|n] x v e N X Q; destruct vs as [|v0 vs]; try discriminate; cbn in X, Q; cbn [assign].
  - injection X as ->. injection Q as ->. now rewrite String.eqb_refl.
  - inversion N as [|? ? N1 N2]; subst. destruct (String.eqb_spec x y) as [->|Ne]; [elim N1; eapply nth_error_In; eauto|]. eapply IH; eauto.
Qed.
Lemma assign_zip_inv {V} xs : forall (vs : list V) x v, assign (fun _ => None) xs vs x = Some v -> exists n, nth_error xs n = Some x /\ nth_error vs n = Some v.
Proof.
  induction xs as [|y xs IH]; intros [|v0 vs] x v H; try discriminate. cbn [assign] in H. destruct (String.eqb_spec x y) as [->|Ne]; [exists 0; cbn; split; congruence|].
  destruct (IH vs x v H) as (n & A & B). exists (S n). auto.
Qed.
Lemma lookup_combine xs : forall (ys : list string) n x y, NoDup xs -> nth_error xs n = Some x -> nth_error ys n = Some y -> lookup x (combine xs ys) = Some y.
Proof.
  induction xs as [|a xs IH]; intros [|b ys] [|n] x y N X Y; try discriminate; cbn in X, Y; cbn [combine lookup].
  - injection X as ->. injection Y as ->. now rewrite String.eqb_refl.
  - inversion N as [|? ? N1 N2]; subst. destruct (String.eqb_spec a x) as [->|Ne]; [elim N1; eapply nth_error_In; eauto|]. eapply IH; eauto.
Qed.
Lemma lookup_combine_None xs (ys : list string) x : ~ In x xs -> lookup x (combine xs ys) = None.
Proof.
  revert ys. induction xs as [|a xs IH]; intros [|b ys] N; try reflexivity. cbn. destruct (String.eqb_spec a x) as [->|Ne]; [elim N; now left|]. apply IH. intros I. apply N. now right.
Qed.
Lemma nth_error_rev {A} (l : list A) n x : nth_error (rev l) n = Some x -> nth_error l (length l - 1 - n) = Some x /\ n < length l.
Proof.
  intros H. assert (L : n < length l) by (rewrite <- rev_length; apply nth_error_Some; congruence). split; [|exact L].
  rewrite <- (rev_involutive l) at 1. set (r := rev l) in *. assert (LR : length r = length l) by apply rev_length. rewrite <- LR in *. clearbody r. clear LR l.
  revert n H L. induction r as [|a r IH]; intros n H L; [destruct n; discriminate|]. cbn [rev length] in *. destruct n as [|n].
  - cbn in H. injection H as ->. rewrite nth_error_app2; rewrite rev_length; [|lia]. replace (S (length r) - 1 - 0 - length r) with 0 by lia. reflexivity.
  - cbn in H. rewrite nth_error_app1 by (rewrite rev_length; lia). replace (S (length r) - 1 - S n) with (length r - 1 - n) by lia. apply IH; [exact H|lia].
Qed.

Section Inline.
Variables (ob ob' : cobject) (c : option string) (id : string) (pos : nat) (f : string) (k : JumpModel.cfun) (call : linstr).
Variables (g g' : clist) (b : cblock) (start : string) (phis : list linstr) (ret : string -> list string).
Notation F := (fn_blocks k).
Notation ff := {| f_name := f; f_args := fn_args k; f_blocks := fn_blocks k |}.
Notation exits := (cl_return (fn_blocks k)).
Notation outs := (li_outs call).
Notation σ := (formals_to_actuals call ff).
Notation ρ := (results_to_returned call ff ret).
Hypothesis OO : object_ok ob.
Hypothesis SS : ssa ob.
Hypothesis OC : only_call ob c id pos f k call.
Hypothesis KG : JumpSpec.component ob c g.
Hypothesis LB : lookup id (cl_blocks g) = Some b.
Hypothesis NC : nth_error (cb_instrs b) pos = Some call.
Hypothesis INL : inlinable g id b pos call ff ret.
Hypothesis START : cl_start F = Some start.
Hypothesis PHIS : if Nat.ltb 1 (length exits)
      then Forall2 (phi_for (map (fun e => rename_var_list σ (ret e)) exits)) (combine (seq 0 (length outs)) outs) (rev phis)
      else phis = [].
Hypothesis LG' : forall x, lookup x (cl_blocks g') = if String.eqb x (second_id id) then Some (rename_block ρ (after_call id b pos ff phis))
        else if String.eqb x (first_id id) then Some (rename_block ρ (before_call id b pos start))
        else if String.eqb x id then None
        else match lookup x (cl_blocks F) with Some bf => Some (final id call ff ret start x bf)
             | None => option_map (fun b0 => rename_block ρ (edit id b0)) (lookup x (cl_blocks g)) end.
Hypothesis SG' : cl_start g' = (if opt_eqb (Some id) (cl_start g) then Some (first_id id) else cl_start g).
Hypothesis B1 : forall x, block_at ob' c x = lookup x (cl_blocks g').
Hypothesis B2 : forall c0 x, c0 <> c -> c0 <> Some f -> block_at ob' c0 x = block_at ob c0 x.
Hypothesis FN : forall q, q <> f -> lookup q (ob_functions ob')
  = option_map (fun k0 => if opt_eqb c (Some q) then {| fn_args := fn_args k0; fn_blocks := g' |} else k0) (lookup q (ob_functions ob)).
Hypothesis BM : cl_start (ob_main ob') = if opt_eqb c None then cl_start g' else cl_start (ob_main ob).

(** ** Names *)
Lemma KF : JumpSpec.component ob (Some f) F. Proof. exists k. split; [apply (oc_function _ _ _ _ _ _ _ OC)|reflexivity]. Qed.
Lemma block_c x : block_at ob c x = lookup x (cl_blocks g).
Proof. unfold block_at, blocks_at. destruct c as [q|]; cbn in KG; [destruct KG as (kq & -> & <-); reflexivity|now rewrite KG]. Qed.
Lemma block_f x : block_at ob (Some f) x = lookup x (cl_blocks F).
Proof. unfold block_at, blocks_at. now rewrite (oc_function _ _ _ _ _ _ _ OC). Qed.
Lemma CF : c <> Some f. Proof. apply (oc_outside _ _ _ _ _ _ _ OC). Qed.
Lemma call_op : li_op call = f.
Proof. destruct (oc_here _ _ _ _ _ _ _ OC) as (blk & B & N & O). rewrite block_c, LB in B. injection B as <-. exact O. Qed.
Notation pre := (firstn pos (cb_instrs b)).
Notation post := (skipn (pos + 1) (cb_instrs b)).
Lemma b_split : cb_instrs b = pre ++ call :: post.
Proof.
  rewrite <- (firstn_skipn pos (cb_instrs b)) at 1. f_equal. generalize NC. generalize (cb_instrs b) as l. generalize pos as n. intros n l.
  revert l. induction n as [|n IH]; intros [|a l] H; cbn in *; try discriminate; [congruence|]. apply IH, H.
Qed.
Lemma outs_def y : In y outs -> defines_at ob c y.
Proof. intros I. right. exists id, b, call. rewrite block_c. split; [exact LB|]. split; [rewrite b_split; apply in_app_iff; right; now left|exact I]. Qed.
Lemma formal_def x : In x (fn_args k) -> defines_at ob (Some f) x.
Proof. intros I. left. exists f, k. split; [reflexivity|]. split; [apply (oc_function _ _ _ _ _ _ _ OC)|exact I]. Qed.
Lemma apart x : defines_at ob c x -> ~ defines_at ob (Some f) x.
Proof. intros A B. apply CF. eapply (ssa_apart _ SS); eauto. Qed.
Lemma read_def c0 x : reads_at ob c0 x -> prefix "0x" x = true \/ (prefix "0x" x = false /\ defines_at ob c0 x).
Proof. intros R. destruct (prefix "0x" x) eqn:P; [now left|right]. split; [reflexivity|]. now apply (ssa_scoped _ SS). Qed.
Lemma ins_read x : In x (li_ins call) -> reads_at ob c x.
Proof. intros I. exists id, b. rewrite block_c. split; [exact LB|]. left. exists call. split; [rewrite b_split; apply in_app_iff; right; now left|exact I]. Qed.
Lemma formals_once : NoDup (fn_args k) /\ NoDup (results F) /\ forall x, In x (fn_args k) -> ~ In x (results F).
Proof. pose proof (ssa_once _ SS (Some f) F KF) as N. unfold arguments in N. rewrite (oc_function _ _ _ _ _ _ _ OC) in N. now apply NoDup_parts in N as (A & B & C). Qed.
Lemma result_In g0 x blk i y : lookup x (cl_blocks g0) = Some blk -> In i (cb_instrs blk) -> In y (li_outs i) -> In y (results g0).
Proof. intros L I J. unfold results. apply in_flat_map. exists (x, blk). split; [now apply lookup_In|]. apply in_flat_map. eauto. Qed.

Lemma const_same d x : prefix "0x" x = true -> rename_var d x = x. Proof. intros H. unfold rename_var, startswith. now rewrite H. Qed.
Lemma ren_absent d x : lookup x d = None -> rename_var d x = x.
Proof. intros H. unfold rename_var. rewrite H. now destruct (startswith "0x" x). Qed.
Lemma ρ_other y : ~ In y outs -> rename_var ρ y = y.
Proof. intros N. apply ren_absent. unfold results_to_returned. destruct (cl_return (f_blocks ff)) as [|e [|]]; try reflexivity. now apply lookup_combine_None. Qed.
Lemma σ_other x : ~ In x (fn_args k) -> rename_var σ x = x.
Proof. intros N. apply ren_absent. unfold formals_to_actuals. now apply lookup_combine_None. Qed.
Lemma σ_formal x n a : nth_error (fn_args k) n = Some x -> nth_error (rev (li_ins call)) n = Some a -> rename_var σ x = a.
Proof.
  intros X A. unfold rename_var, startswith. rewrite (ssa_names _ SS (Some f) x) by (apply formal_def; eapply nth_error_In; eauto).
  unfold formals_to_actuals. cbn [f_args]. now rewrite (lookup_combine _ _ n x a (proj1 formals_once) X A).
Qed.
Lemma σ_actual x : In x (fn_args k) -> In (rename_var σ x) (li_ins call).
Proof.
  intros I. apply In_nth_error in I as (n & X). destruct (nth_error (rev (li_ins call)) n) as [a|] eqn:A.
  - rewrite (σ_formal x n a X A). apply in_rev. eapply nth_error_In; eauto.
  - exfalso. apply nth_error_None in A. rewrite rev_length, <- (oc_arguments _ _ _ _ _ _ _ OC) in A. assert (n < length (fn_args k)) by (apply nth_error_Some; congruence). lia.
Qed.
(** What a variable of the function becomes. *)
Lemma σ_kinds x : reads_at ob (Some f) x -> prefix "0x" (rename_var σ x) = true \/ (~ In x (fn_args k) /\ rename_var σ x = x /\ defines_at ob (Some f) x) \/ (In (rename_var σ x) (li_ins call) /\ prefix "0x" (rename_var σ x) = false).
Proof.
  intros R. destruct (read_def _ _ R) as [P|(P & D)]; [left; now rewrite const_same|]. destruct (in_dec string_dec x (fn_args k)) as [I|I].
  - destruct (prefix "0x" (rename_var σ x)) eqn:Q; [now left|]. right. right. split; [now apply σ_actual|reflexivity].
  - right. left. split; [exact I|]. split; [now apply σ_other|exact D].
Qed.
Lemma σ_not_out x : reads_at ob (Some f) x -> ~ In (rename_var σ x) outs.
Proof.
  intros R I. destruct (σ_kinds x R) as [P|[(_ & E & D)|(J & _)]].
  - apply outs_def, (ssa_names _ SS) in I. congruence.
  - rewrite E in I. apply outs_def in I. exact (apart _ I D).
  - exact (oc_fresh _ _ _ _ _ _ _ OC _ I J).
Qed.
Lemma τ_read x : reads_at ob (Some f) x -> rename_var ρ (rename_var σ x) = rename_var σ x.
Proof. intros R. apply ρ_other. now apply σ_not_out. Qed.
Lemma f_result x blk i y : lookup x (cl_blocks F) = Some blk -> In i (cb_instrs blk) -> In y (li_outs i) -> defines_at ob (Some f) y /\ ~ In y (fn_args k).
Proof.
  intros L I J. split; [right; exists x, blk, i; rewrite block_f; auto|]. intros A. destruct formals_once as (_ & _ & N). apply (N y A). eapply result_In; eauto.
Qed.
Lemma τ_result x blk i y : lookup x (cl_blocks F) = Some blk -> In i (cb_instrs blk) -> In y (li_outs i) -> rename_var ρ (rename_var σ y) = y.
Proof. intros L I J. destruct (f_result x blk i y L I J) as (D & N). rewrite σ_other by exact N. apply ρ_other. intros O. apply outs_def in O. exact (apart _ O D). Qed.
Lemma return_read e x : In e exits -> In x (ret e) -> reads_at ob (Some f) x.
Proof.
  intros I J. destruct (in_returns _ _ _ _ _ _ _ INL e I) as (be & p & L & (i & E & O & R) & _). exists e, be. rewrite block_f. split; [exact L|]. left. exists i. split; [rewrite E; apply in_app_iff; right; now left|now rewrite R].
Qed.
Lemma ρ_out e n y t : exits = [e] -> nth_error outs n = Some y -> nth_error (ret e) n = Some t -> rename_var ρ y = rename_var σ t.
Proof.
  intros E Y T. unfold rename_var at 1, startswith. rewrite (ssa_names _ SS c y) by (apply outs_def; eapply nth_error_In; eauto). unfold results_to_returned. cbn [f_blocks]. rewrite E.
  erewrite (lookup_combine outs _ n y); [reflexivity|apply (in_outs _ _ _ _ _ _ _ INL)|exact Y|]. unfold rename_var_list. rewrite nth_error_map, T. reflexivity.
Qed.
Lemma ρ_kinds y : In y outs -> rename_var ρ y = y \/ prefix "0x" (rename_var ρ y) = true \/ defines_at ob (Some f) (rename_var ρ y) \/ (In (rename_var ρ y) (li_ins call) /\ prefix "0x" (rename_var ρ y) = false).
Proof.
  intros I. destruct exits as [|e [|e2 es]] eqn:E.
  - left. apply ren_absent. unfold results_to_returned. cbn [f_blocks]. now rewrite E.
  - apply In_nth_error in I as (n & Y). destruct (nth_error (ret e) n) as [t|] eqn:T.
    + rewrite (ρ_out e n y t E Y T). assert (R : reads_at ob (Some f) t) by (apply (return_read e); [rewrite E; now left|eapply nth_error_In; eauto]).
      destruct (σ_kinds t R) as [P|[(_ & Q & D)|J]]; [right; now left|right; right; left; now rewrite Q|right; right; now right].
    + exfalso. destruct (in_returns _ _ _ _ _ _ _ INL e) as (be & p & _ & _ & _ & _ & Q); [cbn [f_blocks]; rewrite E; now left|]. apply nth_error_None in T. assert (n < length outs) by (apply nth_error_Some; congruence). lia.
  - left. apply ren_absent. unfold results_to_returned. cbn [f_blocks]. now rewrite E.
Qed.
Lemma c_result x blk i y : lookup x (cl_blocks g) = Some blk -> In i (cb_instrs blk) -> li_op i <> f -> In y (li_outs i) -> defines_at ob c y /\ ~ In y outs.
Proof.
  intros L I N J. split; [right; exists x, blk, i; rewrite block_c; auto|]. intros O. destruct (List.in_split _ _ I) as (p & q & E).
  destruct (result_once g x blk p i q id b pre call post y (results_once ob c g KG SS) L E J LB b_split O) as (_ & _ & _ & -> & _). apply N, call_op.
Qed.
Lemma not_call x blk p i q : lookup x (cl_blocks g) = Some blk -> cb_instrs blk = p ++ i :: q -> (x <> id \/ length p <> pos) -> li_op i <> f.
Proof.
  intros L E D O. destruct (oc_only _ _ _ _ _ _ _ OC c x blk (length p) i) as (_ & Q1 & Q2); [now rewrite block_c|rewrite E, nth_error_app2 by lia; now rewrite Nat.sub_diag|exact O|]. tauto.
Qed.
Lemma pos_pre : length pre = pos.
Proof. apply firstn_length_le. assert (pos < length (cb_instrs b)) by (apply nth_error_Some; congruence). lia. Qed.
Lemma f_reserved : f <> "PhiFunction" /\ f <> "functionReturn" /\ f <> "PUSH [tag]".
Proof.
  assert (N := oo_reserved _ OO f (lookup_In_key _ _ _ (oc_function _ _ _ _ _ _ _ OC))). cbn in N. repeat split; intros E; apply N; rewrite E; tauto.
Qed.
Lemma PF x blk : lookup x (cl_blocks g) = Some blk -> phis_first (cb_instrs blk). Proof. intros L. eapply (oo_phis _ OO); eauto. Qed.
Lemma post_no_phi i : In i (call :: post) -> li_op i <> "PhiFunction".
Proof.
  intros I. destruct (PF id b LB) as (ps & os & E & P & O). rewrite b_split in E.
  assert (Q : forall l, suffix (call :: l) os -> incl (call :: l) os) by (intros l (p & ->); apply incl_appr, incl_refl).
  assert (S : exists l, os = l ++ call :: post).
  { assert (NP : ~ In call ps) by (intros J; apply P in J; rewrite call_op in J; now apply f_reserved in J). clear - E P NP.
    revert E NP. generalize pre as l. induction ps as [|p ps IH]; intros l E NP; [now exists l|]. destruct l as [|a l]; cbn in E; [injection E as <- _; elim NP; now left|].
    injection E as -> E. apply (IH (fun i I => P i (or_intror I)) l E). intros I. apply NP. now right. }
  destruct S as (l & ->). apply O. apply in_app_iff. now right.
Qed.
Lemma phis_b : phis_of (cb_instrs b) = (fst (phis_of pre), snd (phis_of pre) ++ call :: post).
Proof. rewrite b_split at 1. apply phis_of_app. exact post_no_phi. Qed.

(** ** Blocks *)
Lemma in_g x blk : lookup x (cl_blocks g) = Some blk -> x <> first_id id /\ x <> second_id id /\ lookup x (cl_blocks F) = None.
Proof.
  intros L. pose proof (in_split _ _ _ _ _ _ _ INL) as S. apply lookup_In_key in L. split; [intros ->; exact (sp_first _ _ _ S L)|]. split; [intros ->; exact (sp_second _ _ _ S L)|].
  destruct (lookup x (cl_blocks F)) eqn:Q; [|reflexivity]. apply lookup_In_key in Q. apply (in_apart _ _ _ _ _ _ _ INL) in Q. tauto.
Qed.
Lemma in_f x blk : lookup x (cl_blocks F) = Some blk -> x <> first_id id /\ x <> second_id id /\ x <> id /\ lookup x (cl_blocks g) = None.
Proof.
  intros L. apply lookup_In_key in L. apply (in_apart _ _ _ _ _ _ _ INL) in L as (A & B & D). split; [exact B|]. split; [exact D|]. split.
  - intros ->. apply A. eapply lookup_In_key; eauto.
  - destruct (lookup x (cl_blocks g)) eqn:Q; [|reflexivity]. apply lookup_In_key in Q. contradiction.
Qed.
Lemma blk_second : block_at ob' c (second_id id) = Some (rename_block ρ (after_call id b pos ff phis)).
Proof. now rewrite B1, LG', String.eqb_refl. Qed.
Lemma blk_first : block_at ob' c (first_id id) = Some (rename_block ρ (before_call id b pos start)).
Proof. rewrite B1, LG'. destruct (String.eqb_spec (first_id id) (second_id id)) as [Q|_]; [destruct (halves_ne id Q)|]. now rewrite String.eqb_refl. Qed.
Lemma blk_other x blk : x <> id -> lookup x (cl_blocks g) = Some blk -> block_at ob' c x = Some (rename_block ρ (edit id blk)).
Proof.
  intros N L. destruct (in_g x blk L) as (N1 & N2 & N3). rewrite B1, LG'. destruct (String.eqb_spec x (second_id id)); [contradiction|]. destruct (String.eqb_spec x (first_id id)); [contradiction|].
  destruct (String.eqb_spec x id); [contradiction|]. now rewrite N3, L.
Qed.
Lemma blk_inner x bf : lookup x (cl_blocks F) = Some bf -> block_at ob' c x = Some (final id call ff ret start x bf).
Proof.
  intros L. destruct (in_f x bf L) as (N1 & N2 & N3 & _). rewrite B1, LG'. destruct (String.eqb_spec x (second_id id)); [contradiction|]. destruct (String.eqb_spec x (first_id id)); [contradiction|].
  destruct (String.eqb_spec x id); [contradiction|]. now rewrite L.
Qed.
Lemma no_self y : In y (successors b) -> y <> id. Proof. intros I ->. exact (sp_no_loop _ _ _ (in_split _ _ _ _ _ _ _ INL) I). Qed.
Lemma entry_key x blk y : lookup x (cl_blocks g) = Some blk -> In y (cb_entries blk) -> In y (map fst (cl_blocks g)) /\ exists by_, lookup y (cl_blocks g) = Some by_ /\ In x (successors by_).
Proof.
  intros L I. pose proof (in_caller _ _ _ _ _ _ _ INL) as C. apply (c_entries _ C x blk L) in I.
  assert (P : 0 < arrivals g y x) by (unfold arrivals; rewrite L; apply count_In; exact I). rewrite (c_links _ C) in P. unfold departures in P.
  destruct (lookup y (cl_blocks g)) as [by_|] eqn:Q; [|lia]. split; [eapply lookup_In_key; eauto|]. exists by_. split; [reflexivity|]. now apply count_In.
Qed.

(** ** Variables *)
Context {V W : Type}.
Variable M : words V W.
Hypothesis BO : by_operation M.
Definition caller_env (e e' : vars (V := V)) (x : string) (rest : list linstr) : Prop := forall y v, reads_at ob c y -> value M e y = Some v ->
  value M e' (rename_var ρ y) = Some v \/ In y outs /\ reached_without g [y] x rest.
Definition callee_env (ef ec e' : vars (V := V)) : Prop :=
  (forall x v, reads_at ob (Some f) x -> value M ef x = Some v -> value M e' (rename_var σ x) = Some v)
  /\ (forall y v, reads_at ob c y -> ~ In y outs -> value M ec y = Some v -> value M e' y = Some v).

Lemma value_const e x : prefix "0x" x = true -> value M e x = Some (o_word M x).
Proof. intros P. unfold value, startswith. now rewrite P. Qed.
Lemma value_var e x : prefix "0x" x = false -> value M e x = e x.
Proof. intros P. unfold value, startswith. now rewrite P. Qed.
Lemma value_kept e xs vs z v : (prefix "0x" z = true \/ ~ In z xs) -> value M e z = Some v -> value M (assign e xs vs) z = Some v.
Proof.
  intros D H. destruct (prefix "0x" z) eqn:P; [rewrite value_const in * by exact P; exact H|]. destruct D as [D|D]; [discriminate|]. rewrite value_var in * by exact P. now rewrite assign_other.
Qed.
Lemma caller_advance e e' x rest xs vs x2 rest2 : caller_env e e' x rest -> (forall y, In y xs -> defines_at ob c y /\ ~ In y outs) ->
  (forall y, In y outs -> reached_without g [y] x rest -> reached_without g [y] x2 rest2) ->
  (forall a y, In a xs -> In a (li_ins call) -> In y outs -> prefix "0x" a = false -> reached_without g [y] x2 rest2) ->
  caller_env (assign e xs vs) (assign e' xs vs) x2 rest2.
Proof.
  intros CE D W1 W2 y v Ry Hv. destruct (prefix "0x" y) eqn:P; [left; rewrite const_same, value_const in * by exact P; exact Hv|]. rewrite value_var in Hv by exact P.
  destruct (assign_cases xs vs y) as [(I & v' & H)|H]; rewrite H in Hv.
  - left. destruct (D y I) as (_ & N). rewrite ρ_other by exact N. rewrite value_var by exact P. rewrite H. exact Hv.
  - destruct (CE y v Ry) as [Q|(Iy & Q)]; [now rewrite value_var| |right; split; [exact Iy|now apply W1]].
    destruct (in_dec string_dec y outs) as [Iy|Iy].
    + destruct (ρ_kinds y Iy) as [E|[E|[E|(E & Z)]]].
      * left. apply value_kept; [right; rewrite E; intros J; now apply D in J|exact Q].
      * left. apply value_kept; [now left|exact Q].
      * left. apply value_kept; [right|exact Q]. intros J. apply D in J as (J & _). exact (apart _ J E).
      * destruct (in_dec string_dec (rename_var ρ y) xs) as [J|J]; [right; split; [exact Iy|]; eapply W2; eauto|]. left. apply value_kept; [now right|exact Q].
    + left. rewrite ρ_other in * by exact Iy. rewrite value_var in * by exact P. now rewrite H.
Qed.
Lemma caller_read e e' x rest y v : caller_env e e' x rest -> reads_at ob c y -> read_here g x rest y -> value M e y = Some v -> value M e' (rename_var ρ y) = Some v.
Proof.
  intros CE Ry Rh Hv. destruct (CE y v Ry Hv) as [Q|(I & Q)]; [exact Q|]. exfalso. refine (ssa_strict _ SS c g x rest y KG Rh _ _ Q).
  - now apply outs_def, (ssa_names _ SS) in I.
  - intros A. pose proof (ssa_once _ SS c g KG) as N. apply NoDup_parts in N as (_ & N & _). apply (N y A). eapply result_In; [exact LB| |exact I]. rewrite b_split. apply in_app_iff. right. now left.
Qed.
Lemma callee_advance ef ec e' xs vs : callee_env ef ec e' -> (forall y, In y xs -> defines_at ob (Some f) y /\ ~ In y (fn_args k)) -> callee_env (assign ef xs vs) ec (assign e' xs vs).
Proof.
  intros (A & B) D. split.
  - intros x v R Hv. destruct (prefix "0x" x) eqn:P; [rewrite const_same, value_const in * by exact P; exact Hv|]. rewrite value_var in Hv by exact P.
    destruct (assign_cases xs vs x) as [(I & v' & H)|H]; rewrite H in Hv.
    + rewrite σ_other by (now apply D). rewrite value_var by exact P. now rewrite H.
    + assert (Q : value M e' (rename_var σ x) = Some v) by (apply A; [exact R|now rewrite value_var]). destruct (σ_kinds x R) as [E|[(N & E & _)|(E & Z)]].
      * apply value_kept; [now left|exact Q].
      * rewrite E in *. rewrite value_var in * by exact P. now rewrite H.
      * apply value_kept; [right|exact Q]. intros J. apply D in J as (J & _). apply ins_read, read_def in E as [E|(_ & E)]; [congruence|]. exact (apart _ E J).
  - intros y v R N Hv. apply value_kept; [|now apply B]. destruct (read_def _ _ R) as [P|(_ & E)]; [now left|right]. intros J. apply D in J as (J & _). exact (apart _ E J).
Qed.
Lemma rename_outs d xs : (forall x, In x xs -> rename_var d x = x) -> rename_var_list d xs = xs.
Proof. induction xs as [|x xs IH]; intros H; [reflexivity|]. cbn. rewrite H by (now left). f_equal. apply IH. intros y I. apply H. now right. Qed.
(** ** States *)
Notation τ := (fun i => rename_instr ρ (rename_instr σ i)).
Inductive place : string -> list linstr -> string -> list linstr -> Prop :=
| pl_other x blk rest : x <> id -> lookup x (cl_blocks g) = Some blk -> suffix rest (cb_instrs blk) -> place x rest x (map (rename_instr ρ) rest)
| pl_before r : suffix r pre -> place id (r ++ call :: post) (first_id id) (map (rename_instr ρ) r)
| pl_after rest : suffix rest post -> place id rest (second_id id) (map (rename_instr ρ) rest).
Definition inner (x : string) (rest rest' : list linstr) : Prop := exists bf, lookup x (cl_blocks F) = Some bf /\ suffix rest (cb_instrs bf)
  /\ if mem x exits then exists r last, rest = r ++ [last] /\ li_op last = "functionReturn" /\ li_ins last = ret x /\ rest' = map τ r else rest' = map τ rest.
Definition inside (c0 : option string) (x : string) (rest : list linstr) : Prop := exists blk, block_at ob c0 x = Some blk /\ suffix rest (cb_instrs blk).
Definition waiting_frame (ec : vars (V := V)) : suspended V := {| sp_comp := c; sp_block := id; sp_rest := post; sp_outs := outs; sp_vars := ec |}.
Inductive active : option string -> string -> list linstr -> vars (V := V) -> list (suspended V) -> option string -> string -> list linstr -> vars (V := V) -> list (suspended V) -> Prop :=
| act_other c0 x rest e calls calls' : c0 <> c -> c0 <> Some f -> inside c0 x rest -> stack calls calls' -> active c0 x rest e calls c0 x rest e calls'
| act_caller x rest x' rest' e e' calls calls' : place x rest x' rest' -> reached_without g [] x rest -> caller_env e e' x rest -> stack calls calls' ->
    active c x rest e calls c x' rest' e' calls'
| act_callee x rest rest' ef ec e' calls calls' : inner x rest rest' -> callee_env ef ec e' -> reached_without g [] id (call :: post) -> stack calls calls' ->
    active (Some f) x rest ef (waiting_frame ec :: calls) c x rest' e' calls'
with stack : list (suspended V) -> list (suspended V) -> Prop :=
| stack_nil : stack [] []
| stack_push c0 x i rest e calls c0' x' i' rest' e' calls' : active c0 x (i :: rest) e calls c0' x' (i' :: rest') e' calls' ->
    stack ({| sp_comp := c0; sp_block := x; sp_rest := rest; sp_outs := li_outs i; sp_vars := e |} :: calls)
          ({| sp_comp := c0'; sp_block := x'; sp_rest := rest'; sp_outs := li_outs i'; sp_vars := e' |} :: calls').
Inductive rel : state V W -> state V W -> Prop :=
| rel_doing c0 x rest e w calls c0' x' rest' e' calls' : active c0 x rest e calls c0' x' rest' e' calls' -> rel (Doing c0 x rest e w calls) (Doing c0' x' rest' e' w calls')
| rel_done op args w : rel (Done op args w) (Done op args w).

Lemma plain c0 x blk i : block_at ob c0 x = Some blk -> In i (cb_instrs blk) -> li_op i <> "PUSH [tag]".
Proof.
  intros B I O. assert (exists g0, JumpSpec.component ob c0 g0 /\ lookup x (cl_blocks g0) = Some blk) as (g0 & K0 & L0).
  { unfold block_at, blocks_at in B. destruct c0 as [q|]; cbn; [destruct (lookup q (ob_functions ob)) as [kq|]; [|discriminate]; cbn in B; eauto|eauto]. }
  destruct (oo_plain _ OO c0 g0 x blk i K0 L0 I) as (N & _). apply N. rewrite O. now left.
Qed.
Lemma exits_types x bf : lookup x (cl_blocks F) = Some bf -> (mem x exits = true <-> cb_type bf = "FunctionReturn").
Proof.
  intros L. rewrite mem_In, (c_return _ (in_callee _ _ _ _ _ _ _ INL) x). cbn [f_blocks]. split.
  - intros (bx & L' & T). rewrite L in L'. injection L' as <-. destruct T as [T|[]]. now symmetry.
  - intros T. exists bf. split; [exact L|]. now left.
Qed.
Lemma return_here x bf p i q : lookup x (cl_blocks F) = Some bf -> cb_instrs bf = p ++ i :: q -> li_op i = "functionReturn" -> mem x exits = true /\ q = [].
Proof.
  intros L E O. destruct (oo_leaving _ OO (Some f) F x bf p i q KF L E) as (Q & _ & T); [rewrite O; cbn; tauto|]. split; [|exact Q]. apply (exits_types x bf L). auto.
Qed.
(** What the next instruction is in the other object. *)
Definition same_next (c0 : option string) (x : string) (i : linstr) (rest : list linstr) (e : vars (V := V)) (calls : list (suspended V))
    (c0' : option string) (x' : string) (rest' : list linstr) (e' : vars (V := V)) (calls' : list (suspended V)) : Prop :=
  exists i' rest0', rest' = i' :: rest0' /\ li_op i' = li_op i /\ (li_lits i' = li_lits i /\ length (li_outs i') = length (li_outs i)) /\ li_op i <> f /\ li_op i <> "PUSH [tag]"
  /\ (forall args, values M e (li_ins i) = Some args -> values M e' (li_ins i') = Some args)
  /\ (li_op i = "functionReturn" -> stack calls calls')
  /\ forall vs, active c0 x rest (assign e (li_outs i) vs) calls c0' x' rest0' (assign e' (li_outs i') vs) calls'.
Lemma rename_length d i : length (li_outs (rename_instr d i)) = length (li_outs i). Proof. apply map_length. Qed.

Lemma caller_next x i rest x' i' rest' e e' calls calls' : place x (i :: rest) x' (i' :: rest') -> reached_without g [] x (i :: rest) -> caller_env e e' x (i :: rest) -> stack calls calls' ->
  same_next c x i rest e calls c x' (i' :: rest') e' calls'.
Proof.
  intros P R CE ST.
  assert (H : exists blk p, lookup x (cl_blocks g) = Some blk /\ cb_instrs blk = p ++ i :: rest /\ i' = rename_instr ρ i /\ li_op i <> f /\ place x rest x' rest').
  { inversion P as [x0 blk r N L (p & E) Q1 Q2 Q3 Q4|r (p & E) Q1 Q2 Q3 Q4|r (p & E) Q1 Q2 Q3 Q4]; subst.
    - exists blk, p. split; [exact L|]. split; [exact E|]. split; [reflexivity|]. split; [eapply not_call; eauto|]. econstructor; eauto. exists (p ++ [i]). now rewrite <- app_assoc.
    - destruct r as [|j r]; [discriminate|]. cbn in Q2, Q4. injection Q2 as <- <-. injection Q4 as <- <-. exists b, p.
      assert (EB : cb_instrs b = p ++ j :: r ++ call :: post) by (rewrite b_split at 1; rewrite E at 1; now rewrite <- app_assoc). split; [exact LB|]. split; [exact EB|]. split; [reflexivity|]. split.
      + apply (not_call id b p j _ LB EB). right. pose proof pos_pre as PP. rewrite E, app_length in PP. cbn in PP. lia.
      + constructor. exists (p ++ [j]). now rewrite <- app_assoc.
    - exists b, (pre ++ call :: p). assert (EB : cb_instrs b = (pre ++ call :: p) ++ i :: rest) by (rewrite b_split at 1; rewrite E at 1; rewrite <- app_assoc; reflexivity).
      split; [exact LB|]. split; [exact EB|]. split; [reflexivity|]. split.
      + apply (not_call id b _ i _ LB EB). right. rewrite app_length, pos_pre. cbn. lia.
      + constructor. exists (p ++ [i]). now rewrite <- app_assoc. }
  destruct H as (blk & p & L & E & -> & NF & PL). assert (Ii : In i (cb_instrs blk)) by (rewrite E; apply in_app_iff; right; now left).
  assert (OUT : rename_var_list ρ (li_outs i) = li_outs i) by (apply rename_outs; intros y I; apply ρ_other; eapply c_result; eauto).
  exists (rename_instr ρ i), rest'. split; [reflexivity|]. split; [reflexivity|]. split; [split; [reflexivity|apply rename_length]|]. split; [exact NF|]. split; [apply (plain c x blk i); [now rewrite block_c|exact Ii]|]. split; [|split; [auto|]].
  - intros args H. unfold rename_instr. cbn [li_ins]. apply (values_same M e e' (rename_var ρ)); [|exact H]. intros y v I Hy.
    eapply caller_read; [exact CE| |now constructor|exact Hy]. exists x, blk. rewrite block_c. split; [exact L|left; eauto].
  - intros vs. change (li_outs (rename_instr ρ i)) with (rename_var_list ρ (li_outs i)). rewrite OUT. constructor; [exact PL| | |exact ST].
    + eapply rw_instr; [exact R|intros z []].
    + eapply caller_advance; [exact CE|intros y I; eapply c_result; eauto| |].
      * intros y Iy Q. eapply rw_instr; [exact Q|]. intros z [<-|[]] J. destruct (c_result x blk i y L Ii NF J) as (_ & N). contradiction.
      * intros a y Ia Ic Iy Z. assert (R' : reached_without g [] x rest) by (eapply rw_instr; [exact R|intros z []]).
        assert (AD : after_def g a x rest) by (eapply (after_instr g); [exact PF|exact R|exact Ia]).
        eapply (stale ob c g KG SS PF a y id b pre call post); eauto; [apply b_split|]. rewrite call_op. apply f_reserved.
Qed.
Lemma callee_next x i rest rest' ef ec e' calls calls' : inner x (i :: rest) rest' -> rest' <> [] \/ li_op i <> "functionReturn" -> callee_env ef ec e' -> reached_without g [] id (call :: post) -> stack calls calls' ->
  same_next (Some f) x i rest ef (waiting_frame ec :: calls) c x rest' e' calls'.
Proof.
  intros (bf & L & (p & E) & H) D CE R ST. assert (Ii : In i (cb_instrs bf)) by (rewrite E; apply in_app_iff; right; now left).
  assert (G : exists rest0', rest' = τ i :: rest0' /\ li_op i <> "functionReturn" /\ inner x rest rest0').
  { destruct (mem x exits) eqn:Mx.
    - destruct H as (r & last & Q & O & RT & ->). destruct r as [|j r]; cbn in Q; injection Q as <- ->.
      + cbn in D. destruct D; congruence.
      + exists (map τ r). split; [reflexivity|]. split.
        * intros O'. destruct (return_here x bf p i _ L E O') as (_ & Q). destruct r; discriminate.
        * exists bf. split; [exact L|]. split; [exists (p ++ [i]); rewrite <- app_assoc; exact E|]. rewrite Mx. exists r, last. auto.
    - exists (map τ rest). split; [exact H|]. split.
      + intros O. destruct (return_here x bf p i rest L E O) as (Q & _). congruence.
      + exists bf. split; [exact L|]. split; [exists (p ++ [i]); rewrite <- app_assoc; exact E|]. now rewrite Mx. }
  destruct G as (rest0' & -> & NR & IN).
  assert (OUT : rename_var_list ρ (rename_var_list σ (li_outs i)) = li_outs i).
  { unfold rename_var_list. rewrite map_map. rewrite <- (map_id (li_outs i)) at 2. apply map_ext_in. intros y I. eapply τ_result; eauto. }
  exists (τ i), rest0'. split; [reflexivity|]. split; [reflexivity|]. split; [split; [reflexivity|rewrite !rename_length; reflexivity]|]. split.
  - intros O. destruct (oc_only _ _ _ _ _ _ _ OC (Some f) x bf (length p) i) as (Q & _); [now rewrite block_f|rewrite E, nth_error_app2 by lia; now rewrite Nat.sub_diag|exact O|]. now apply CF.
  - split; [apply (plain (Some f) x bf i); [now rewrite block_f|exact Ii]|]. split; [|split; [contradiction|]].
    + intros args H'. unfold rename_instr. cbn [li_ins]. unfold rename_var_list. rewrite map_map. apply (values_same M ef e' (fun y => rename_var ρ (rename_var σ y))); [|exact H'].
      intros y v I Hy. assert (Ry : reads_at ob (Some f) y) by (exists x, bf; rewrite block_f; split; [exact L|left; eauto]). rewrite τ_read by exact Ry. exact (proj1 CE y v Ry Hy).
    + intros vs. change (li_outs (rename_instr ρ (rename_instr σ i))) with (rename_var_list ρ (rename_var_list σ (li_outs i))). rewrite OUT. constructor; [exact IN| |exact R|exact ST].
      apply callee_advance; [exact CE|]. intros y I. eapply f_result; eauto.
Qed.
Lemma next c0 x i rest e calls c0' x' rest' e' calls' : active c0 x (i :: rest) e calls c0' x' rest' e' calls' ->
  same_next c0 x i rest e calls c0' x' rest' e' calls'
  \/ (c0 = c /\ x = id /\ i = call /\ rest = post /\ c0' = c /\ x' = first_id id /\ rest' = [] /\ caller_env e e' id (call :: post) /\ reached_without g [] id (call :: post) /\ stack calls calls')
  \/ (exists ec calls0, c0 = Some f /\ In x exits /\ rest = [] /\ li_op i = "functionReturn" /\ li_ins i = ret x /\ c0' = c /\ x' = x /\ rest' = [] /\ calls = waiting_frame ec :: calls0
      /\ callee_env e ec e' /\ reached_without g [] id (call :: post) /\ stack calls0 calls').
Proof.
  intros A. inversion A as [c1 x1 r1 e1 cs cs' N1 N2 (blk & B & S) ST|x1 r1 x1' r1' e1 e1' cs cs' P R CE ST|x1 r1 r1' ef ec e1' cs cs' IN CE R ST]; subst.
  - left. exists i, rest. split; [reflexivity|]. split; [reflexivity|]. split; [split; reflexivity|]. destruct S as (p & E).
    assert (Ii : In i (cb_instrs blk)) by (rewrite E; apply in_app_iff; right; now left). split.
    + intros O. destruct (oc_only _ _ _ _ _ _ _ OC c0' x' blk (length p) i B) as (Q & _); [rewrite E, nth_error_app2 by lia; now rewrite Nat.sub_diag|exact O|]. contradiction.
    + split; [exact (plain c0' x' blk i B Ii)|]. split; [auto|]. split; [auto|]. intros vs. constructor; auto. exists blk. split; [exact B|]. exists (p ++ [i]). now rewrite <- app_assoc.
  - destruct rest' as [|i' rest0']; [|left; now apply caller_next]. right. left.
    inversion P as [x0 blk r N L (p & E) Q1 Q2 Q3 Q4|r (p & E) Q1 Q2 Q3 Q4|r (p & E) Q1 Q2 Q3 Q4]; subst; try discriminate. destruct r; [|discriminate]. cbn in Q2. injection Q2 as <- <-. auto 12.
  - destruct (string_dec (li_op i) "functionReturn") as [O|O]; [|left; apply callee_next; auto]. destruct rest' as [|j rest']; [|left; apply callee_next; auto; left; discriminate].
    destruct IN as (bf & L & (p & E) & H). destruct (return_here x' bf p i rest L E O) as (Mx & ->). rewrite Mx in H. destruct H as (r & last & Q & OL & RT & Z).
    destruct r as [|j r]; [|discriminate]. cbn in Q. injection Q as <-. right. right. exists ec, cs. apply mem_In in Mx. auto 14.
Qed.
(** ** Jumps *)
Lemma arrive_rest blk from e rest e2 : arrive M blk from e = Some (rest, e2) -> rest = snd (phis_of (cb_instrs blk)).
Proof.
  unfold arrive. destruct (phis_of (cb_instrs blk)) as [ps r]. destruct ps; [intros H; now injection H|]. destruct from as [x|]; [|discriminate]. destruct (index_of x (cb_entries blk)); [|discriminate].
  destruct (phi_values M e _ _); [|discriminate]. cbn. intros H. now injection H.
Qed.
Lemma rest_suffix l : suffix (snd (phis_of l)) l. Proof. exists (fst (phis_of l)). apply phis_of_split. Qed.
Lemma goto_other c0 from to e w calls calls' t : c0 <> c -> c0 <> Some f -> stack calls calls' -> goto M ob c0 from to e w calls = Some t ->
  exists t', goto M ob' c0 from to e w calls' = Some t' /\ rel t t'.
Proof.
  intros N1 N2 ST H. unfold goto in *. destruct to as [y|]; [|discriminate]. rewrite B2 by assumption. destruct (block_at ob c0 y) as [blk|] eqn:B; [|discriminate].
  destruct (arrive M blk from e) as [[rest e2]|] eqn:A; [|discriminate]. cbn in *. injection H as <-. eexists. split; [reflexivity|]. constructor. constructor; auto.
  exists blk. split; [exact B|]. rewrite (arrive_rest _ _ _ _ _ A). apply rest_suffix.
Qed.
Lemma enter_caller e w calls calls' t : (forall y, In y outs -> e y = None) -> stack calls calls' -> goto M ob c None (cl_start g) e w calls = Some t ->
  exists t', goto M ob' c None (cl_start g') e w calls' = Some t' /\ rel t t'.
Proof.
  intros NO ST H. unfold goto in *. revert H. case_eq (cl_start g); [|discriminate]. intros s S H. rewrite block_c in H. destruct (lookup s (cl_blocks g)) as [blk|] eqn:L; [|discriminate].
  unfold arrive in H. destruct (phis_of (cb_instrs blk)) as [ps rest] eqn:P. destruct ps; [|discriminate]. cbn in H. injection H as <-.
  assert (CE : forall z r, caller_env e e z r).
  { intros z r y v Ry Hv. left. destruct (prefix "0x" y) eqn:Py; [now rewrite const_same|]. destruct (in_dec string_dec y outs) as [I|I]; [|now rewrite ρ_other]. rewrite value_var, NO in Hv by assumption. discriminate. }
  assert (RE : reached_without g [] s rest) by (eapply rw_start; eauto).
  rewrite SG', S. cbn [opt_eqb]. destruct (String.eqb_spec id s) as [<-|N].
  - rewrite LB in L. injection L as <-. rewrite phis_b in P. injection P as P1 P2. rewrite blk_first. unfold arrive.
    change (cb_instrs (rename_block ρ (before_call id b pos start))) with (map (rename_instr ρ) pre). rewrite phis_rename, P1. cbn. eexists. split; [reflexivity|]. constructor.
    assert (EP : pre = snd (phis_of pre)) by (rewrite (phis_of_split pre) at 1; rewrite P1; reflexivity).
    constructor; [|exact RE|apply CE|exact ST]. rewrite <- P2, <- EP. constructor. apply suffix_refl.
  - rewrite (blk_other s blk) by (auto; congruence). unfold arrive. change (cb_instrs (rename_block ρ (edit id blk))) with (map (rename_instr ρ) (cb_instrs blk)). rewrite phis_rename, P. cbn.
    eexists. split; [reflexivity|]. constructor. constructor; [|exact RE|apply CE|exact ST]. eapply pl_other; eauto. pose proof (rest_suffix (cb_instrs blk)) as Q. now rewrite P in Q.
Qed.
Lemma flat_outs ps : (forall p, In p ps -> rename_var_list ρ (li_outs p) = li_outs p) -> flat_map li_outs (map (rename_instr ρ) ps) = flat_map li_outs ps.
Proof. induction ps as [|p ps IH]; intros H; [reflexivity|]. cbn [map flat_map]. rewrite IH by (intros q I; apply H; now right). f_equal. apply H. now left. Qed.
Lemma next_in blk e y : next_block M blk e = Some y -> In y (successors blk).
Proof.
  unfold next_block, successors. destruct (String.eqb (cb_type blk) "conditional").
  - destruct (cb_cond blk) as [x|]; [|discriminate]. destruct (value M e x) as [v|]; [|discriminate]. destruct (o_truth M v); intros ->; apply in_app_iff; [left|right]; now left.
  - destruct (cb_jump_to blk) as [j|]; intros H; [injection H as ->; now left|]. rewrite H. apply in_app_iff. right. now left.
Qed.
(** The phi functions of a block of the caller. *)
Lemma caller_arrive x blkx y blk instrs entries from' instrs' e e' rest e2 :
  lookup x (cl_blocks g) = Some blkx -> In y (successors blkx) -> lookup y (cl_blocks g) = Some blk -> reached_without g [] x [] -> caller_env e e' x [] ->
  arrive M blk (Some x) e = Some (rest, e2) ->
  instrs = cb_instrs blk -> index_of from' entries = index_of x (cb_entries blk) ->
  phis_of instrs' = (map (rename_instr ρ) (fst (phis_of instrs)), snd (phis_of instrs')) ->
  forall blk', cb_instrs blk' = instrs' -> cb_entries blk' = entries -> exists e2', arrive M blk' (Some from') e' = Some (snd (phis_of instrs'), e2') /\ caller_env e2 e2' y rest /\ reached_without g [] y rest.
Proof.
  intros Lx Iy Ly R CE A -> EN PH blk' EI EE. assert (AR := arrive_rest _ _ _ _ _ A). unfold arrive in *. rewrite EI, EE, PH, EN. destruct (phis_of (cb_instrs blk)) as [ps r] eqn:P. cbn [fst snd] in *. subst r.
  assert (RY : reached_without g [] y rest) by (eapply rw_edge; eauto; intros z []).
  assert (PI : forall p, In p ps -> In p (cb_instrs blk) /\ li_op p = "PhiFunction").
  { intros p I. split; [rewrite (phis_of_split (cb_instrs blk)), P; apply in_app_iff; now left|]. apply (phis_of_phis (cb_instrs blk)). now rewrite P. }
  assert (RES : forall z, In z (flat_map li_outs ps) -> defines_at ob c z /\ ~ In z outs).
  { intros z I. apply in_flat_map in I as (p & I1 & I2). destruct (PI p I1) as (I3 & O). eapply c_result; eauto. rewrite O. intros Q. symmetry in Q. now apply f_reserved in Q. }
  assert (ADV : forall vs, caller_env (assign e (flat_map li_outs ps) vs) (assign e' (flat_map li_outs ps) vs) y rest).
  { intros vs. eapply caller_advance; [exact CE|exact RES| |].
    - intros z Iz Q. eapply rw_edge; eauto. intros z' [<-|[]] J. apply RES in J. tauto.
    - intros a z Ia Ic Iz Z. eapply (stale ob c g KG SS PF a z id b pre call post); eauto; [apply b_split|rewrite call_op; apply f_reserved|]. eapply (after_phis g); eauto. }
  destruct ps as [|p ps]; [injection A as <-; exists e'; split; [reflexivity|]; split; [exact (ADV [])|exact RY]|].
  destruct (index_of x (cb_entries blk)) as [j|] eqn:J; [|discriminate]. destruct (phi_values M e j (p :: ps)) as [vs|] eqn:PV; [|discriminate]. cbn in A. injection A as <-.
  cbn [map]. change (rename_instr ρ p :: map (rename_instr ρ) ps) with (map (rename_instr ρ) (p :: ps)). rewrite (phi_values_same M e e' ρ j (p :: ps)) with (vs := vs).
  - cbn [option_map]. eexists. split; [reflexivity|]. split; [|exact RY]. rewrite flat_outs; [apply ADV|]. intros q I. apply rename_outs. intros z Iz. apply ρ_other. apply RES. apply in_flat_map. eauto.
  - intros q z v I N Hv. eapply caller_read; [exact CE| | |exact Hv].
    + exists y, blk. rewrite block_c. split; [exact Ly|]. left. exists q. split; [now apply PI|eapply nth_error_In; eauto].
    + eapply rh_phi; eauto. now rewrite P.
  - exact PV.
Qed.
Lemma caller_goto x blk x' blk' e e' w calls calls' t : lookup x (cl_blocks g) = Some blk -> x' = renamed id (second_id id) x ->
  cb_type blk' = cb_type blk -> cb_cond blk' = option_map (rename_var ρ) (cb_cond blk) ->
  cb_jump_to blk' = option_map (renamed id (first_id id)) (cb_jump_to blk) -> cb_falls_to blk' = option_map (renamed id (first_id id)) (cb_falls_to blk) ->
  reached_without g [] x [] -> caller_env e e' x [] -> stack calls calls' ->
  goto M ob c (Some x) (next_block M blk e) e w calls = Some t -> exists t', goto M ob' c (Some x') (next_block M blk' e') e' w calls' = Some t' /\ rel t t'.
Proof.
  intros L -> TY CO JT FT R CE ST H. unfold goto in H. destruct (next_block M blk e) as [y|] eqn:NB; [|discriminate]. rewrite block_c in H. destruct (lookup y (cl_blocks g)) as [bly|] eqn:LY; [|discriminate].
  assert (Iy := next_in _ _ _ NB).
  assert (NB' : next_block M blk' e' = Some (renamed id (first_id id) y)).
  { unfold next_block in *. rewrite TY, CO, JT, FT. destruct (String.eqb (cb_type blk) "conditional") eqn:T.
    - destruct (cb_cond blk) as [z|] eqn:C; [|discriminate]. cbn [option_map]. destruct (value M e z) as [v|] eqn:Hv; [|discriminate].
      rewrite (caller_read e e' x [] z v CE); [destruct (o_truth M v); rewrite NB; reflexivity| | |exact Hv].
      + exists x, blk. rewrite block_c. split; [exact L|now right].
      + eapply rh_cond; eauto. now apply String.eqb_eq.
    - destruct (cb_jump_to blk) as [j|]; [injection NB as ->; reflexivity|]. cbn [option_map]. now rewrite NB. }
  rewrite NB'. unfold goto. destruct (arrive M bly (Some x) e) as [[rest e2]|] eqn:A; [|discriminate]. cbn in H. injection H as <-. assert (AR := arrive_rest _ _ _ _ _ A).
  destruct (string_dec y id) as [->|NY].
  - replace (renamed id (first_id id) id) with (first_id id) by (unfold renamed; now rewrite String.eqb_refl). rewrite LB in LY. injection LY as <-. assert (Nx : x <> id) by (intros ->; rewrite LB in L; injection L as <-; now apply no_self in Iy). replace (renamed id (second_id id) x) with x by (unfold renamed; destruct (String.eqb_spec x id); congruence).
    rewrite blk_first. destruct (caller_arrive x blk id b (cb_instrs b) (cb_entries b) x (map (rename_instr ρ) pre) e e' rest e2 L Iy LB R CE A eq_refl eq_refl) with (blk' := rename_block ρ (before_call id b pos start)) as (e2' & AA & CE2 & R2).
    + rewrite phis_rename, phis_b. reflexivity.
    + reflexivity.
    + reflexivity.
    + rewrite AA. cbn. eexists. split; [reflexivity|]. constructor. constructor; [|exact R2|exact CE2|exact ST]. rewrite AR, phis_b, phis_rename. cbn [fst snd]. constructor. apply rest_suffix.
  - replace (renamed id (first_id id) y) with y by (unfold renamed; destruct (String.eqb_spec y id); congruence). rewrite (blk_other y bly NY LY).
    destruct (caller_arrive x blk y bly (cb_instrs bly) (map (renamed id (second_id id)) (cb_entries bly)) (renamed id (second_id id) x) (map (rename_instr ρ) (cb_instrs bly)) e e' rest e2 L Iy LY R CE A eq_refl) with (blk' := rename_block ρ (edit id bly)) as (e2' & AA & CE2 & R2).
    + apply index_renamed; [now apply in_g in L|]. intros I. destruct (entry_key y bly _ LY I) as (_ & bk & Q & _). apply in_g in Q as (_ & Q & _). congruence.
    + rewrite phis_rename. reflexivity.
    + reflexivity.
    + reflexivity.
    + rewrite AA. cbn. eexists. split; [reflexivity|]. constructor. constructor; [|exact R2|exact CE2|exact ST]. rewrite phis_rename. cbn [snd]. rewrite <- AR. eapply pl_other; eauto. rewrite AR. apply rest_suffix.
Qed.

(** ** Blocks of the function *)
Lemma fin_instrs x bf : cb_instrs (final id call ff ret start x bf) = if mem x exits then removelast (map τ (cb_instrs bf)) else map τ (cb_instrs bf).
Proof.
  unfold final. cbn [f_blocks]. destruct (mem x exits); unfold drop_last; cbn [set_split set_instrs cb_instrs rename_block]; rewrite linked_return, map_map; reflexivity.
Qed.
Lemma fin_entries x bf : cb_entries (final id call ff ret start x bf) = cb_entries bf.
Proof. unfold final. cbn [f_blocks]. destruct (mem x exits); cbn [drop_last set_split set_instrs cb_entries rename_block]; apply linked_entries. Qed.
Lemma fin_rest x bf : let bl := final id call ff ret start x bf in
  cb_type bl = (if String.eqb (cb_type bf) "FunctionReturn" then "unconditional" else cb_type bf) /\ cb_cond bl = option_map (rename_var ρ) (option_map (rename_var σ) (cb_cond bf))
  /\ cb_falls_to bl = cb_falls_to bf /\ cb_jump_to bl = if mem x exits then Some (second_id id) else cb_jump_to bf.
Proof.
  cbn zeta. unfold final, linked, no_return. cbn [f_blocks]. change (cb_type (rename_block σ bf)) with (cb_type bf).
  destruct (mem x exits), (String.eqb x start), (String.eqb (cb_type bf) "FunctionReturn"); cbn; auto.
Qed.
Lemma exit_instrs x bf : lookup x (cl_blocks F) = Some bf -> mem x exits = true -> exists p last, cb_instrs bf = p ++ [last] /\ li_op last = "functionReturn" /\ li_ins last = ret x /\ successors bf = [] /\ cb_cond bf = None.
Proof.
  intros L Mx. apply mem_In in Mx. destruct (in_returns _ _ _ _ _ _ _ INL x Mx) as (be & p & L' & (i & E & O & R) & S & C & _). cbn [f_blocks] in L'. rewrite L in L'. injection L' as <-. exists p, i. auto.
Qed.
Lemma phis_τ l : phis_of (map τ l) = (map τ (fst (phis_of l)), map τ (snd (phis_of l))).
Proof. rewrite <- (map_map (rename_instr σ) (rename_instr ρ)), phis_rename, phis_rename. cbn [fst snd]. now rewrite !map_map. Qed.
Lemma inner_arrive y bf from from' e ec e' rest e2 : lookup y (cl_blocks F) = Some bf -> from = from' \/ from = None -> callee_env e ec e' -> arrive M bf from e = Some (rest, e2) ->
  exists rest' e2', arrive M (final id call ff ret start y bf) from' e' = Some (rest', e2') /\ inner y rest rest' /\ callee_env e2 ec e2'.
Proof.
  intros L D CE A. assert (AR := arrive_rest _ _ _ _ _ A).
  assert (P : exists r', phis_of (cb_instrs (final id call ff ret start y bf)) = (map τ (fst (phis_of (cb_instrs bf))), r') /\ inner y rest r').
  { rewrite fin_instrs. unfold inner. destruct (mem y exits) eqn:Mx.
    - destruct (exit_instrs y bf L Mx) as (p & last & E & O & RT & _). rewrite E, map_app. cbn [map]. rewrite removelast_snoc.
      assert (NP : forall i, In i [last] -> li_op i <> "PhiFunction") by (intros i [<-|[]]; rewrite O; discriminate). rewrite (phis_of_app p [last] NP). cbn [fst].
      rewrite phis_τ. eexists. split; [reflexivity|]. exists bf. split; [exact L|]. split; [rewrite AR, E; apply rest_suffix|]. exists (snd (phis_of p)), last. split; [rewrite AR, E, (phis_of_app p [last] NP); reflexivity|auto].
    - rewrite phis_τ. eexists. split; [reflexivity|]. exists bf. split; [exact L|]. split; [rewrite AR; apply rest_suffix|]. now rewrite AR. }
  destruct P as (r' & P & IN). exists r'. unfold arrive in *. rewrite P, fin_entries. destruct (phis_of (cb_instrs bf)) as [ps r] eqn:Q. cbn [fst snd] in *.
  destruct ps as [|p ps]; [injection A as <- <-; exists e'; auto|]. destruct D as [ <- | -> ]; [|discriminate]. destruct from as [x|]; [|discriminate]. cbn [map].
  destruct (index_of x (cb_entries bf)) as [j|]; [|discriminate]. destruct (phi_values M e j (p :: ps)) as [vs|] eqn:PV; [|discriminate]. cbn in A. injection A as _ <-.
  change (rename_instr ρ (rename_instr σ p) :: map τ ps) with (map τ (p :: ps)). rewrite <- (map_map (rename_instr σ) (rename_instr ρ)).
  assert (PI : forall q, In q (p :: ps) -> In q (cb_instrs bf)) by (intros q I; rewrite (phis_of_split (cb_instrs bf)), Q; apply in_app_iff; now left).
  assert (PV' : phi_values M e' j (map (rename_instr ρ) (map (rename_instr σ) (p :: ps))) = Some vs).
  { apply (phi_values_same M e' e' ρ j) with (vs := vs).
    - intros q z v I N Hv. apply in_map_iff in I as (q0 & <- & I). unfold rename_instr in N. cbn [li_ins] in N. unfold rename_var_list in N. rewrite nth_error_map in N. destruct (nth_error (li_ins q0) j) as [z0|] eqn:N0; [|discriminate]. cbn in N. injection N as <-.
      rewrite τ_read; [exact Hv|]. exists y, bf. rewrite block_f. split; [exact L|]. left. exists q0. split; [auto|eapply nth_error_In; eauto].
    - apply (phi_values_same M e e' σ j) with (vs := vs); [|exact PV]. intros q z v I N Hv. apply (proj1 CE); [|exact Hv]. exists y, bf. rewrite block_f. split; [exact L|]. left. exists q. split; [auto|eapply nth_error_In; eauto]. }
  rewrite PV'. cbn [option_map]. eexists. split; [reflexivity|]. split; [exact IN|].
  replace (flat_map li_outs (map (rename_instr ρ) (map (rename_instr σ) (p :: ps)))) with (flat_map li_outs (p :: ps)).
  - apply callee_advance; [exact CE|]. intros z I. apply in_flat_map in I as (q & I1 & I2). eapply f_result; eauto.
  - clear PV PV' P. revert PI. generalize (p :: ps). intros l. induction l as [|q l IH]; intros PI; [reflexivity|]. cbn [flat_map map]. rewrite <- IH by (intros z I; apply PI; now right). f_equal.
    cbn [rename_instr li_outs]. unfold rename_var_list. rewrite map_map. rewrite <- (map_id (li_outs q)) at 1. apply map_ext_in. intros z I. symmetry. eapply τ_result; eauto. apply PI. now left.
Qed.
Lemma callee_goto x ef ec e' rest' w calls calls' t bf : inner x [] rest' -> lookup x (cl_blocks F) = Some bf -> callee_env ef ec e' -> reached_without g [] id (call :: post) -> stack calls calls' ->
  goto M ob (Some f) (Some x) (next_block M bf ef) ef w (waiting_frame ec :: calls) = Some t ->
  exists t', goto M ob' c (Some x) (next_block M (final id call ff ret start x bf) e') e' w calls' = Some t' /\ rel t t'.
Proof.
  intros (bf0 & L0 & _ & H0) L CE R ST H. rewrite L in L0. injection L0 as <-. assert (Mx : mem x exits = false) by (destruct (mem x exits); [destruct H0 as ([|? ?] & ? & Q & _); discriminate|reflexivity]).
  destruct (fin_rest x bf) as (TY & CO & FT & JT). rewrite Mx in JT.
  unfold goto in H. destruct (next_block M bf ef) as [y|] eqn:NB; [|discriminate]. rewrite block_f in H. destruct (lookup y (cl_blocks F)) as [bfy|] eqn:LY; [|discriminate].
  assert (NB' : next_block M (final id call ff ret start x bf) e' = Some y).
  { unfold next_block in *. rewrite TY, CO, FT, JT. destruct (String.eqb_spec (cb_type bf) "FunctionReturn") as [Q|_]; [apply (exits_types x bf L) in Q; congruence|].
    destruct (String.eqb (cb_type bf) "conditional"); [|exact NB]. destruct (cb_cond bf) as [z|] eqn:C; [|discriminate]. cbn [option_map]. destruct (value M ef z) as [v|] eqn:Hv; [|discriminate].
    assert (Rz : reads_at ob (Some f) z) by (exists x, bf; rewrite block_f; split; [exact L|now right]). rewrite (τ_read z Rz), (proj1 CE z v Rz Hv). exact NB. }
  rewrite NB'. unfold goto. rewrite (blk_inner y bfy LY). destruct (arrive M bfy (Some x) ef) as [[rest e2]|] eqn:A; [|discriminate]. cbn in H. injection H as <-.
  destruct (inner_arrive y bfy (Some x) (Some x) ef ec e' rest e2 LY (or_introl eq_refl) CE A) as (r2 & e2' & -> & IN & CE2). cbn. eexists. split; [reflexivity|]. constructor. constructor; auto.
Qed.
Lemma call_step e e' w calls calls' args t : caller_env e e' id (call :: post) -> reached_without g [] id (call :: post) -> stack calls calls' ->
  values M e (li_ins call) = Some args ->
  goto M ob (Some f) None (cl_start F) (assign (fun _ => None) (rev (fn_args k)) args) w (waiting_frame e :: calls) = Some t ->
  exists t', goto M ob' c (Some (first_id id)) (Some start) e' w calls' = Some t' /\ rel t t'.
Proof.
  intros CE R ST VA H. rewrite START in H. unfold goto in *. rewrite block_f in H. destruct (lookup start (cl_blocks F)) as [bf|] eqn:L; [|discriminate]. rewrite (blk_inner start bf L).
  destruct (arrive M bf None _) as [[rest e2]|] eqn:A; [|discriminate]. cbn in H. injection H as <-.
  assert (CC : callee_env (assign (fun _ => None) (rev (fn_args k)) args) e e').
  { split.
    - intros x v Rx Hv. destruct (prefix "0x" x) eqn:P; [rewrite const_same, value_const in * by exact P; exact Hv|]. rewrite value_var in Hv by exact P.
      apply assign_zip_inv in Hv as (n & N1 & N2). destruct (values_nth _ _ _ _ VA) as (LN & VN). apply nth_error_rev in N1 as (N1 & LT).
      assert (LT2 : n < length (li_ins call)) by (rewrite <- LN; apply nth_error_Some; congruence). destruct (nth_error (li_ins call) n) as [a|] eqn:NA; [|apply nth_error_None in NA; lia].
      destruct (VN n a NA) as (v' & E1 & E2). rewrite N2 in E1. injection E1 as <-. rewrite (σ_formal x (length (fn_args k) - 1 - n) a N1).
      + assert (I : In a (li_ins call)) by (eapply nth_error_In; eauto). rewrite <- (ρ_other a) by (intros J; now apply (oc_fresh _ _ _ _ _ _ _ OC) in J). eapply caller_read; [exact CE|now apply ins_read|now constructor|exact E2].
      + pose proof (oc_arguments _ _ _ _ _ _ _ OC) as LA. destruct (nth_error (rev (li_ins call)) (length (fn_args k) - 1 - n)) as [a'|] eqn:NA'.
        * apply nth_error_rev in NA' as (Q & _). replace (length (li_ins call) - 1 - (length (fn_args k) - 1 - n)) with n in Q by lia. congruence.
        * apply nth_error_None in NA'. rewrite rev_length in NA'. lia.
    - intros y v Ry N Hv. destruct (CE y v Ry Hv) as [Q|(Q & _)]; [|contradiction]. now rewrite ρ_other in Q. }
  destruct (inner_arrive start bf None (Some (first_id id)) _ e e' rest e2 L (or_intror eq_refl) CC A) as (r2 & e2' & -> & IN & CE2). cbn. eexists. split; [reflexivity|]. constructor. constructor; auto.
Qed.
Lemma phi_values_for e' j args : forall l ps, Forall2 (phi_for (map (fun e => rename_var_list σ (ret e)) exits)) l ps -> forall x, nth_error exits j = Some x ->
  (forall n t, nth_error (ret x) n = Some t -> exists v, nth_error args n = Some v /\ value M e' (rename_var σ t) = Some v) ->
  exists vs, phi_values M e' j ps = Some vs /\ flat_map li_outs ps = map snd l /\ Forall2 (fun io v => nth_error args (fst io) = Some v) l vs.
Proof.
  induction 1 as [|io p l ps (O & OU & IN) FA IH]; intros x N H; [exists []; repeat split; constructor|]. destruct (IH x N H) as (vs & P1 & P2 & P3).
  assert (Q : exists a, nth_error (li_ins p) j = Some a /\ nth_error (rename_var_list σ (ret x)) (fst io) = Some a).
  { revert IN. assert (N' : nth_error (map (fun e => rename_var_list σ (ret e)) exits) j = Some (rename_var_list σ (ret x))) by (now rewrite nth_error_map, N). revert N'. generalize (map (fun e => rename_var_list σ (ret e)) exits).
    generalize (rename_var_list σ (ret x)) (li_ins p). clear. intros rv ins l. revert j ins. induction l as [|r l IH]; intros [|j] ins N IN; try discriminate; inversion IN; subst; cbn in *; [injection N as ->; eauto|eauto]. }
  destruct Q as (a & Q1 & Q2). unfold rename_var_list in Q2. rewrite nth_error_map in Q2. destruct (nth_error (ret x) (fst io)) as [t|] eqn:NT; [|discriminate]. assert (Q3 : a = rename_var σ t) by (change (Some (rename_var σ t) = Some a) in Q2; congruence).
  destruct (H _ _ NT) as (v & V1 & V2). exists (v :: vs). cbn [phi_values]. rewrite Q1, Q3, V2, P1. split; [reflexivity|]. split; [cbn [flat_map map]; now rewrite OU, P2|]. now constructor.
Qed.
Lemma Forall2_back {A B} (R : A -> B -> Prop) l l' : Forall2 R l (rev l') -> Forall2 R (rev l) l'.
Proof.
  intros H. rewrite <- (rev_involutive l'). induction H; [constructor|]. cbn [rev]. apply Forall2_app; [exact IHForall2|]. now repeat constructor.
Qed.
Lemma snd_numbers (l : list string) : forall n, map snd (combine (seq n (length l)) l) = l.
Proof. induction l as [|x l IH]; intros n; [reflexivity|]. cbn. now rewrite IH. Qed.
Lemma in_numbers (l : list string) : forall n m y, nth_error l m = Some y -> nth_error (combine (seq n (length l)) l) m = Some (n + m, y).
Proof.
  induction l as [|x l IH]; intros n [|m] y H; try discriminate; cbn in *; [injection H as ->; now rewrite Nat.add_0_r|]. rewrite (IH (S n) m y H). f_equal. f_equal. lia.
Qed.
Lemma index_at x l : In x l -> exists j, index_of x l = Some j /\ nth_error l j = Some x.
Proof.
  induction l as [|y l IH]; intros I; [destruct I|]. cbn [index_of]. destruct (String.eqb_spec y x) as [->|N]; [exists 0; auto|]. destruct I as [Q|I]; [contradiction|]. destruct (IH I) as (j & Q1 & Q2). rewrite Q1. exists (S j). auto.
Qed.
Lemma return_step x ef ec e' w calls calls' args : In x exits -> callee_env ef ec e' -> reached_without g [] id (call :: post) -> stack calls calls' ->
  values M ef (ret x) = Some args -> length outs = length args ->
  exists t', goto M ob' c (Some x) (Some (second_id id)) e' w calls' = Some t' /\ rel (Doing c id post (assign ec outs args) w calls) t'.
Proof.
  intros Ix CE R ST VA LA. unfold goto. rewrite blk_second. unfold arrive.
  change (cb_instrs (rename_block ρ (after_call id b pos ff phis))) with (map (rename_instr ρ) (phis ++ post)).
  change (cb_entries (rename_block ρ (after_call id b pos ff phis))) with (if Nat.ltb 1 (length exits) then exits else []).
  assert (RP : reached_without g [] id post) by (eapply rw_instr; [exact R|intros z []]).
  assert (NP : phis_of post = ([], post)). { pose proof post_no_phi as Q. destruct post as [|i q]; [reflexivity|]. cbn. destruct (String.eqb_spec (li_op i) "PhiFunction") as [E|_]; [exfalso; apply (Q i); [right; now left|exact E]|reflexivity]. }
  destruct (values_nth _ _ _ _ VA) as (LN & VN).
  assert (RV : forall n t, nth_error (ret x) n = Some t -> exists v, nth_error args n = Some v /\ value M e' (rename_var σ t) = Some v).
  { intros n t N. destruct (VN n t N) as (v & E1 & E2). exists v. split; [exact E1|]. apply (proj1 CE); [|exact E2]. apply (return_read x); [exact Ix|eapply nth_error_In; eauto]. }
  assert (OUTV : forall y v, In y outs -> assign ec outs args y = Some v -> exists n, nth_error outs n = Some y /\ nth_error args n = Some v).
  { intros y v I Hv. apply In_nth_error in I as (n & N). assert (n < length args) by (rewrite <- LA; apply nth_error_Some; congruence). destruct (nth_error args n) as [v'|] eqn:NV; [|apply nth_error_None in NV; lia].
    rewrite (assign_zip outs args n y v' ec (in_outs _ _ _ _ _ _ _ INL) N NV) in Hv. injection Hv as ->. eauto. }
  pose proof PHIS as PH. destruct (Nat.ltb_spec 1 (length exits)) as [LT|LE].
  - assert (RN : ρ = []) by (unfold results_to_returned; cbn [f_blocks]; destruct exits as [|? [|? ?]]; cbn in LT; [lia|lia|reflexivity]). rewrite RN.
    assert (EI : forall l, map (rename_instr []) l = l) by (intros l; rewrite <- (map_id l) at 2; apply map_ext; intros i; apply rename_instr_nil).
    rewrite EI. apply Forall2_back in PH. assert (PP : forall p, In p phis -> li_op p = "PhiFunction").
    { clear -PH. induction PH as [|io p l ps (O & _) FA IH]; intros q I; [destruct I|]. destruct I as [<-|I]; auto. }
    assert (PO : phis_of (phis ++ post) = (phis, post)).
    { clear -PP NP. induction phis as [|p ps IH]; [exact NP|]. cbn. rewrite (PP p) by (now left). cbn. rewrite IH by (intros q I; apply PP; now right). reflexivity. }
    rewrite PO. destruct (index_at x exits Ix) as (j & J1 & J2). destruct (phi_values_for e' j args _ _ PH x J2 RV) as (vs & P1 & P2 & P3). rewrite J1.
    assert (MS : map snd (rev (combine (seq 0 (length outs)) outs)) = rev outs) by (rewrite map_rev; f_equal; apply snd_numbers).
    assert (CE2 : caller_env (assign ec outs args) (assign e' (flat_map li_outs phis) vs) id post).
    { rewrite P2, MS. intros y v Ry Hv. left. destruct (prefix "0x" y) eqn:P; [rewrite const_same, value_const in * by exact P; exact Hv|].
      assert (EY : rename_var ρ y = y) by (rewrite RN; apply rename_var_nil). rewrite EY. rewrite value_var in * by exact P.
      destruct (in_dec string_dec y outs) as [I|I].
      - destruct (OUTV y v I Hv) as (n & N1 & N2). pose proof (in_numbers outs 0 n y N1) as N3. apply nth_error_In in N3. apply in_rev, In_nth_error in N3 as (m & N3).
        assert (N4 : nth_error (rev outs) m = Some y) by (rewrite <- MS, nth_error_map, N3; reflexivity).
        assert (N5 : nth_error vs m = Some v).
        { clear -P3 N3 N2. revert m N3. induction P3 as [|io u l us E FA IH]; intros [|m] N3; try discriminate; cbn in *; [injection N3 as ->; cbn in E; congruence|eauto]. }
        apply (assign_zip (rev outs) vs m y v e'); auto. apply NoDup_rev, (in_outs _ _ _ _ _ _ _ INL).
      - rewrite assign_other in Hv by exact I. rewrite assign_other by (intros J; apply in_rev in J; contradiction). rewrite <- (value_var e' y P). apply (proj2 CE); auto. now rewrite value_var. }
    assert (PL : place id post (second_id id) post) by (pose proof (pl_after post (suffix_refl _)) as Q; rewrite RN in Q; rewrite EI in Q; exact Q).
    match goal with |- context [option_map _ ?m] => assert (AR : m = Some (post, assign e' (flat_map li_outs phis) vs)) end.
    { clear -P1. destruct phis as [|p ps]; [cbn in P1; injection P1 as <-; reflexivity|]. now rewrite P1. }
    rewrite AR. cbn [option_map fst snd]. eexists. split; [reflexivity|]. constructor. constructor; auto.
  - rewrite PH. cbn [app]. rewrite phis_rename, NP. cbn [fst snd map]. cbn. eexists. split; [reflexivity|]. constructor. constructor; [apply pl_after, suffix_refl|exact RP| |exact ST].
    assert (EX : exits = [x]) by (destruct exits as [|a [|? ?]]; cbn in LE; [destruct Ix|destruct Ix as [->|[]]; reflexivity|lia]).
    intros y v Ry Hv. left. destruct (prefix "0x" y) eqn:P; [rewrite const_same, value_const in * by exact P; exact Hv|]. rewrite value_var in Hv by exact P. destruct (in_dec string_dec y outs) as [I|I].
    + destruct (OUTV y v I Hv) as (n & N1 & N2). assert (n < length (ret x)) by (rewrite <- LN; apply nth_error_Some; congruence). destruct (nth_error (ret x) n) as [t|] eqn:NT; [|apply nth_error_None in NT; lia].
      rewrite (ρ_out x n y t EX N1 NT). destruct (RV n t NT) as (v' & E1 & E2). congruence.
    + rewrite assign_other in Hv by exact I. rewrite ρ_other by exact I. apply (proj2 CE); auto. now rewrite value_var.
Qed.

(** ** Steps *)
Lemma step s s' t : rel s t -> ostep M ob s = Some s' -> exists t', ostep M ob' t = Some t' /\ rel s' t'.
Proof.
  intros R H. destruct R as [c0 x rest e w calls c0' x' rest' e' calls' A|]; [|discriminate]. destruct rest as [|i rest]; cbn [ostep] in H.
  - inversion A as [c1 x1 r1 e1 cs cs' N1 N2 IN ST|x1 r1 x1' r1' e1 e1' cs cs' P R CE ST|x1 r1 r1' ef ec e1' cs cs' IN CE R ST]; subst.
    + cbn [ostep]. rewrite B2 by assumption. destruct (block_at ob c0' x') as [blk|]; [|discriminate]. destruct (String.eqb (cb_type blk) "mainExit"); [injection H as <-; eexists; split; [reflexivity|constructor]|]. eapply goto_other; eauto.
    + rewrite block_c in H. inversion P as [x0 blk r N L (p & E) Q1 Q2 Q3 Q4|r (p & E) Q1 Q2 Q3 Q4|r (p & E) Q1 Q2 Q3 Q4]; subst.
      * cbn [map ostep]. rewrite L in H. rewrite (blk_other x' blk N L). change (cb_type (rename_block ρ (edit id blk))) with (cb_type blk).
        destruct (String.eqb (cb_type blk) "mainExit"); [injection H as <-; eexists; split; [reflexivity|constructor]|].
        eapply caller_goto; [exact L| | | | | |exact R|exact CE|exact ST|exact H]; try reflexivity. unfold renamed. destruct (String.eqb_spec x' id); congruence.
      * destruct r; discriminate.
      * cbn [map ostep]. rewrite LB in H. rewrite blk_second. change (cb_type (rename_block ρ (after_call id b pos ff phis))) with (cb_type b).
        destruct (String.eqb (cb_type b) "mainExit"); [injection H as <-; eexists; split; [reflexivity|constructor]|].
        assert (SAME : forall o, (forall y, o = Some y -> In y (successors b)) -> o = option_map (renamed id (first_id id)) o).
        { intros [y|] S; [|reflexivity]. cbn. unfold renamed. destruct (String.eqb_spec y id) as [->|]; [|reflexivity]. exfalso. exact (no_self id (S id eq_refl) eq_refl). }
        eapply caller_goto; [exact LB| | | | | |exact R|exact CE|exact ST|exact H]; try reflexivity.
        -- unfold renamed. now rewrite String.eqb_refl.
        -- apply (SAME (cb_jump_to b)). intros y Q. unfold successors. rewrite Q. now left.
        -- apply (SAME (cb_falls_to b)). intros y Q. unfold successors. rewrite Q. apply in_app_iff. right. now left.
    + rewrite block_f in H. destruct (lookup x' (cl_blocks F)) as [bf|] eqn:L; [|discriminate].
      assert (Z : rest' = []) by (destruct IN as (? & _ & _ & Q); destruct (mem x' exits); [destruct Q as ([|? ?] & ? & Q & _); discriminate|exact Q]). subst rest'. cbn [ostep].
      rewrite (blk_inner x' bf L). destruct (fin_rest x' bf) as (TY & _). rewrite TY. destruct (String.eqb_spec (cb_type bf) "FunctionReturn") as [Q|NQ].
      { exfalso. apply (exits_types x' bf L) in Q. destruct IN as (bf0 & L0 & _ & H0). rewrite Q in H0. destruct H0 as ([|? ?] & ? & Q0 & _); discriminate. }
      destruct (String.eqb (cb_type bf) "mainExit"); [injection H as <-; eexists; split; [reflexivity|constructor]|]. eapply callee_goto; eauto.
  - destruct (values M e (li_ins i)) as [args|] eqn:VA; [|discriminate].
    destruct (next _ _ _ _ _ _ _ _ _ _ _ A) as [(i' & r' & -> & OP & (LT & LO) & NF & NT & VS & RT & ACT)|[(-> & -> & -> & -> & -> & -> & -> & CE & R & ST)|(ec & calls0 & -> & Ix & -> & O & IR & -> & -> & -> & -> & CE & R & ST)]].
    + cbn [ostep]. rewrite (VS args VA), OP, (FN _ NF). destruct (lookup (li_op i) (ob_functions ob)) as [k0|] eqn:LK; cbn [option_map].
      * assert (SP := stack_push _ _ _ _ _ _ _ _ _ _ _ _ A). assert (DC : opt_eqb c (Some (li_op i)) = true \/ opt_eqb c (Some (li_op i)) = false) by (destruct (opt_eqb c (Some (li_op i))); auto).
        destruct DC as [DC|DC]; rewrite DC.
        -- apply opt_eqb_eq in DC. cbn [fn_args fn_blocks]. destruct (Nat.eqb (length (fn_args k0)) (length args)); [|discriminate].
           assert (GK : fn_blocks k0 = g). { pose proof KG as Q. rewrite DC in Q. destruct Q as (k1 & Q1 & Q2). congruence. }
           rewrite GK, <- DC in H. rewrite <- DC. eapply enter_caller; [|exact SP|exact H]. intros y Iy. rewrite assign_other; [reflexivity|]. rewrite <- in_rev. intros J.
           pose proof (ssa_once _ SS c g KG) as N. apply NoDup_parts in N as (_ & N & _). apply (N y).
           ++ unfold arguments. rewrite DC, LK. exact J.
           ++ eapply result_In; [exact LB| |exact Iy]. rewrite b_split. apply in_app_iff. right. now left.
        -- destruct (Nat.eqb (length (fn_args k0)) (length args)); [|discriminate]. eapply goto_other; [|congruence|exact SP|exact H].
           intros Q. rewrite <- Q, opt_eqb_refl in DC. discriminate.
      * destruct (String.eqb_spec (li_op i) "functionReturn") as [O|O].
        -- specialize (RT O). destruct RT as [|c1 x1 i1 r1 e1 cs c1' x1' i1' r1' e1' cs' A1]; [discriminate|]. cbn [sp_outs sp_comp sp_block sp_rest sp_vars] in *.
           destruct (next _ _ _ _ _ _ _ _ _ _ _ A1) as [(i2 & r2 & Q & _ & (_ & LO2) & _ & _ & _ & _ & ACT2)|[(_ & _ & _ & _ & _ & _ & Q & _)|(? & ? & _ & _ & _ & _ & _ & _ & _ & Q & _)]]; try discriminate.
           injection Q as <- <-. rewrite LO2. destruct (Nat.eqb (length (li_outs i1)) (length args)); [|discriminate]. injection H as <-. eexists. split; [reflexivity|]. constructor. apply ACT2.
        -- destruct (mem (li_op i) stopping); [injection H as <-; eexists; split; [reflexivity|constructor]|].
           rewrite (BO i' i) by (rewrite ?OP; auto). destruct (o_do M i args w) as [vs w']. injection H as <-. eexists. split; [reflexivity|]. constructor. apply ACT.
    + rewrite call_op, (oc_function _ _ _ _ _ _ _ OC) in H. cbn [ostep]. rewrite blk_first. cbn [String.eqb].
      change (cb_type (rename_block ρ (before_call id b pos start))) with "sub_block". cbn [String.eqb Ascii.eqb Bool.eqb]. change (next_block M (rename_block ρ (before_call id b pos start)) e') with (Some start).
      destruct (Nat.eqb (length (fn_args k)) (length args)); [|discriminate]. eapply call_step; eauto.
    + rewrite O in H. destruct f_reserved as (_ & NR & _).
      assert (LN : lookup "functionReturn" (ob_functions ob) = None).
      { destruct (lookup "functionReturn" (ob_functions ob)) as [k0|] eqn:Q; [|reflexivity]. exfalso. apply lookup_In_key in Q. apply (oo_reserved _ OO) in Q. cbn in Q. tauto. }
      rewrite LN in H. cbn [String.eqb Ascii.eqb Bool.eqb] in H. change (sp_outs (waiting_frame ec)) with outs in H. destruct (Nat.eqb_spec (length outs) (length args)) as [LA|]; [|discriminate]. injection H as <-.
      rewrite IR in VA. destruct (in_returns _ _ _ _ _ _ _ INL x Ix) as (bf & p & L & _). cbn [f_blocks] in L. cbn [ostep]. rewrite (blk_inner x bf L). destruct (fin_rest x bf) as (TY & CO & FT & JT).
      assert (MX : mem x exits = true) by (now apply mem_In). rewrite (proj1 (exits_types x bf L) MX) in TY. rewrite MX in JT. cbn [String.eqb Ascii.eqb Bool.eqb] in TY. unfold next_block. rewrite TY, JT. cbn [String.eqb Ascii.eqb Bool.eqb].
      eapply return_step; eauto.
Qed.
Lemma begins w s : begins_at M ob w = Some s -> exists t, begins_at M ob' w = Some t /\ rel s t.
Proof.
  unfold begins_at. intros H. rewrite BM. assert (DC : opt_eqb c None = true \/ opt_eqb c None = false) by (destruct (opt_eqb c None); auto). destruct DC as [DC|DC]; rewrite DC.
  - apply opt_eqb_eq in DC. pose proof KG as Q. rewrite DC in Q. cbn in Q. rewrite Q in H. pose proof (enter_caller (fun _ => None) w [] [] s (fun _ _ => eq_refl) stack_nil) as EC. rewrite DC in EC. exact (EC H).
  - apply goto_other with (calls := []); [|discriminate|constructor|exact H]. intros Q. rewrite <- Q in DC. discriminate.
Qed.
Lemma inlined_carries w : (forall op args w', stops M ob w op args w' -> stops M ob' w op args w') /\ (goes_on M ob w -> goes_on M ob' w).
Proof.
  apply (simulated M ob ob' rel (fun _ => 0)).
  - intros s s' t R H. destruct (step s s' t R H) as (t' & S & R'). exists 1, t'. cbn [iter]. rewrite S. split; [reflexivity|]. split; [exact R'|discriminate].
  - intros op args w0 t R. inversion R. exists 0. reflexivity.
  - apply begins.
Qed.

(** ** The object is again one whose calls can be inlined *)
Hypothesis CA : calls_ok ob.
Hypothesis KO : forall c0 g0, JumpSpec.component ob' c0 g0 <-> (c0 = c /\ g0 = g') \/ (c0 <> c /\ c0 <> Some f /\ JumpSpec.component ob c0 g0).
Hypothesis FNS : map fst (ob_functions ob') = filter (fun q => negb (String.eqb q f)) (map fst (ob_functions ob)).
Hypothesis CG' : consistent g'.

Lemma block_cases x blk' : lookup x (cl_blocks g') = Some blk' ->
  (x = second_id id /\ blk' = rename_block ρ (after_call id b pos ff phis)) \/ (x = first_id id /\ blk' = rename_block ρ (before_call id b pos start))
  \/ (exists bf, lookup x (cl_blocks F) = Some bf /\ blk' = final id call ff ret start x bf) \/ (exists blk, x <> id /\ lookup x (cl_blocks g) = Some blk /\ blk' = rename_block ρ (edit id blk)).
Proof.
  rewrite LG'. destruct (String.eqb_spec x (second_id id)) as [->|N2]; [intros H; left; split; congruence|]. destruct (String.eqb_spec x (first_id id)) as [->|N1]; [intros H; right; left; split; congruence|].
  destruct (String.eqb_spec x id) as [->|N0]; [discriminate|]. destruct (lookup x (cl_blocks F)) as [bf|]; [intros H; right; right; left; exists bf; split; congruence|].
  destruct (lookup x (cl_blocks g)) as [blk|]; [|discriminate]. intros H. right. right. right. exists blk. cbn [option_map] in H. repeat split; congruence.
Qed.
Lemma many_exits : 1 < length exits -> ρ = [].
Proof. intros L. unfold results_to_returned. cbn [f_blocks]. destruct exits as [|e [|e2 es]]; [reflexivity|cbn in L; lia|reflexivity]. Qed.
Lemma phi_facts p : In p phis -> 1 < length exits /\ li_op p = "PhiFunction" /\ exists n y, nth_error outs n = Some y /\ li_outs p = [y]
  /\ Forall2 (fun e v => exists t, nth_error (ret e) n = Some t /\ v = rename_var σ t) exits (li_ins p).
Proof.
  intros I. pose proof PHIS as PH. destruct (Nat.ltb_spec 1 (length exits)) as [L|L]; [|rewrite PH in I; destruct I]. split; [exact L|]. apply in_rev in I.
  destruct (In_nth_error _ _ I) as (m & N). assert (Q : exists a, nth_error (combine (seq 0 (length outs)) outs) m = Some a /\ phi_for (map (fun e => rename_var_list σ (ret e)) exits) a p).
  { clear -PH N. revert N. revert m. induction PH as [|a q la lq H HS IH]; intros [|m] N; cbn in *; try discriminate; [injection N as ->; eauto|eauto]. }
  destruct Q as ([n y] & Q & (O & E & FA)). split; [exact O|]. exists n, y. assert (Y : nth_error outs n = Some y).
  { clear -Q. assert (G : forall l s m, nth_error (combine (seq s (length l)) l) m = Some (n, y) -> n = s + m /\ nth_error l m = Some y).
    { clear. induction l as [|a l IH]; intros s [|m] H; cbn in H; try discriminate; [injection H as -> ->; split; [lia|reflexivity]|]. apply IH in H as (-> & H). split; [lia|exact H]. }
    apply G in Q as (-> & Q). exact Q. }
  split; [exact Y|]. split; [exact E|]. cbn [fst] in FA. clear -FA. revert FA. generalize (li_ins p) as vs. induction exits as [|e es IH]; intros vs FA; inversion FA as [|? v ? vs' H HS]; subst; constructor; [|now apply IH].
  unfold rename_var_list in H. rewrite nth_error_map in H. destruct (nth_error (ret e) n) as [t|]; [|discriminate]. cbn in H. injection H as <-. eauto.
Qed.
Lemma map_rename_nil l : map (rename_instr []) l = l. Proof. induction l as [|q l IH]; [reflexivity|]. cbn [map]. now rewrite rename_instr_nil, IH. Qed.
Lemma second_instrs : cb_instrs (rename_block ρ (after_call id b pos ff phis)) = phis ++ map (rename_instr ρ) post.
Proof.
  change (map (rename_instr ρ) (phis ++ post) = phis ++ map (rename_instr ρ) post). rewrite map_app. f_equal. assert (D : phis = [] \/ exists p, In p phis) by (clear; destruct phis as [|p ps]; [now left|right; exists p; now left]).
  destruct D as [E|(p & I)]; [now rewrite E|]. destruct (phi_facts p I) as (L & _). rewrite (many_exits L). apply map_rename_nil.
Qed.
Lemma pre_not_call i : In i pre -> li_op i <> f.
Proof.
  intros I O. destruct (List.in_split _ _ I) as (p & q & E). refine (not_call id b p i (q ++ call :: post) LB _ (or_intror _) O).
  - rewrite b_split at 1. rewrite E at 1. now rewrite <- app_assoc.
  - pose proof pos_pre as PP. rewrite E, app_length in PP. cbn in PP. lia.
Qed.
Lemma post_not_call i : In i post -> li_op i <> f.
Proof.
  intros I O. destruct (List.in_split _ _ I) as (p & q & E). refine (not_call id b (pre ++ call :: p) i q LB _ (or_intror _) O).
  - rewrite b_split at 1. rewrite E at 1. now rewrite <- app_assoc.
  - rewrite app_length. pose proof pos_pre as PP. cbn. lia.
Qed.
Lemma other_not_call x blk i : x <> id -> lookup x (cl_blocks g) = Some blk -> In i (cb_instrs blk) -> li_op i <> f.
Proof. intros N L I. destruct (List.in_split _ _ I) as (p & q & E). eapply not_call; eauto. Qed.
Lemma inner_not_call x bf i : lookup x (cl_blocks F) = Some bf -> In i (cb_instrs bf) -> li_op i <> f.
Proof.
  intros L I O. destruct (In_nth_error _ _ I) as (n & N). destruct (oc_only _ _ _ _ _ _ _ OC (Some f) x bf n i) as (Q & _); [now rewrite block_f|exact N|exact O|]. now apply CF.
Qed.
Lemma elsewhere_not_call c0 g0 x blk i : c0 <> c -> JumpSpec.component ob c0 g0 -> lookup x (cl_blocks g0) = Some blk -> In i (cb_instrs blk) -> li_op i <> f.
Proof.
  intros NE K L I O. destruct (In_nth_error _ _ I) as (n & N). destruct (oc_only _ _ _ _ _ _ _ OC c0 x blk n i) as (Q & _); [|exact N|exact O|contradiction].
  unfold block_at, blocks_at. destruct c0 as [q|]; cbn in K; [destruct K as (kq & -> & <-); exact L|cbn; now rewrite K].
Qed.
Lemma kept_outs x blk i : lookup x (cl_blocks g) = Some blk -> In i (cb_instrs blk) -> li_op i <> f -> li_outs (rename_instr ρ i) = li_outs i.
Proof. intros L I N. apply rename_outs. intros y J. apply ρ_other. eapply c_result; eauto. Qed.
Lemma inner_outs x bf i : lookup x (cl_blocks F) = Some bf -> In i (cb_instrs bf) -> li_outs (τ i) = li_outs i.
Proof. intros L I. cbn. unfold rename_var_list. rewrite map_map. rewrite <- (map_id (li_outs i)) at 2. apply map_ext_in. intros y J. eapply τ_result; eauto. Qed.
Lemma inner_ins x bf i : lookup x (cl_blocks F) = Some bf -> In i (cb_instrs bf) -> li_ins (τ i) = rename_var_list σ (li_ins i).
Proof.
  intros L I. cbn. unfold rename_var_list. rewrite map_map. apply map_ext_in. intros y J. apply τ_read. exists x, bf. rewrite block_f. split; [exact L|]. left. eauto.
Qed.
(** The instructions of the new blocks. *)
Inductive comes (x : string) : linstr -> Prop :=
| co_phi p : x = second_id id -> In p phis -> comes x p
| co_caller y blk i : lookup y (cl_blocks g) = Some blk -> In i (cb_instrs blk) -> li_op i <> f -> comes x (rename_instr ρ i)
| co_inner bf i : lookup x (cl_blocks F) = Some bf -> In i (cb_instrs bf) -> li_op i <> "functionReturn" -> comes x (τ i).
Lemma fin_in x bf i' : lookup x (cl_blocks F) = Some bf -> In i' (cb_instrs (final id call ff ret start x bf)) -> exists i, In i (cb_instrs bf) /\ i' = τ i /\ li_op i <> "functionReturn".
Proof.
  intros L I. rewrite fin_instrs in I. destruct (mem x exits) eqn:Mx.
  - destruct (exit_instrs x bf L Mx) as (p & l & E & O & _). rewrite E, map_app in I. cbn [map] in I. rewrite removelast_last in I. apply in_map_iff in I as (i & <- & I). exists i.
    split; [rewrite E; apply in_app_iff; now left|]. split; [reflexivity|]. intros Q. destruct (List.in_split _ _ I) as (p1 & p2 & ->). rewrite <- app_assoc in E. cbn in E.
    destruct (return_here x bf _ i _ L E Q) as (_ & Z). now destruct p2.
  - apply in_map_iff in I as (i & <- & I). exists i. split; [exact I|]. split; [reflexivity|]. intros Q. destruct (List.in_split _ _ I) as (p1 & p2 & E). destruct (return_here x bf _ i _ L E Q) as (Z & _). congruence.
Qed.
Lemma comes_from x blk' i' : lookup x (cl_blocks g') = Some blk' -> In i' (cb_instrs blk') -> comes x i'.
Proof.
  intros L I. destruct (block_cases x blk' L) as [(-> & ->)|[(-> & ->)|[(bf & LF & ->)|(blk & N & LX & ->)]]].
  - rewrite second_instrs in I. apply in_app_iff in I as [I|I]; [now apply co_phi|]. apply in_map_iff in I as (i & <- & I). apply (co_caller _ id b); [exact LB|rewrite b_split; apply in_app_iff; right; now right|now apply post_not_call].
  - change (In i' (map (rename_instr ρ) pre)) in I. apply in_map_iff in I as (i & <- & I). apply (co_caller _ id b); [exact LB|rewrite b_split; apply in_app_iff; now left|now apply pre_not_call].
  - destruct (fin_in x bf i' LF I) as (i & J & -> & O). eapply co_inner; eauto.
  - change (In i' (map (rename_instr ρ) (cb_instrs blk))) in I. apply in_map_iff in I as (i & <- & I). eapply co_caller; eauto. eapply other_not_call; eauto.
Qed.
(** ** Definitions and readings *)
Definition kept (x : string) : Prop := (defines_at ob c x /\ (In x outs -> 1 < length exits)) \/ (defines_at ob (Some f) x /\ ~ In x (fn_args k)).
Lemma still_listed op : In op (leaving ++ map fst (ob_functions ob)) -> op <> f -> In op (leaving ++ map fst (ob_functions ob')).
Proof. intros I N. apply in_app_iff in I as [I|I]; apply in_app_iff; [now left|right]. rewrite FNS. apply filter_In. split; [exact I|]. apply negb_true_iff. now apply String.eqb_neq. Qed.
Lemma gone : lookup f (ob_functions ob') = None.
Proof.
  destruct (lookup f (ob_functions ob')) as [k0|] eqn:E; [|reflexivity]. apply lookup_In_key in E. rewrite FNS in E. apply filter_In in E as (_ & E). now rewrite String.eqb_refl in E.
Qed.
Lemma args' c0 : c0 <> Some f -> arguments ob' c0 = arguments ob c0.
Proof.
  intros N. destruct c0 as [q|]; [|reflexivity]. cbn. rewrite FN by congruence. destruct (lookup q (ob_functions ob)); [|reflexivity]. cbn. now destruct (opt_eqb c (Some q)).
Qed.
Lemma args_def o c0 x : In x (arguments o c0) -> defines_at o c0 x.
Proof.
  unfold arguments. destruct c0 as [q|]; [|intros []]. destruct (lookup q (ob_functions o)) as [kq|] eqn:E; [|intros []]. intros I. left. eauto.
Qed.
Lemma def_cases o c0 x : defines_at o c0 x -> In x (arguments o c0) \/ exists b0 blk i, block_at o c0 b0 = Some blk /\ In i (cb_instrs blk) /\ In x (li_outs i).
Proof. intros [(q & kq & -> & E & I)|H]; [left; cbn; now rewrite E|now right]. Qed.
Lemma defined' x : defines_at ob' c x -> kept x.
Proof.
  intros D. apply def_cases in D as [I|(z & blk' & i' & B & I & J)].
  - rewrite args' in I by apply CF. left. split; [now apply args_def|]. intros O. exfalso. pose proof (ssa_once _ SS c g KG) as N. apply NoDup_parts in N as (_ & N & _). apply (N x I).
    eapply result_In; [exact LB| |exact O]. rewrite b_split. apply in_app_iff. right. now left.
  - rewrite B1 in B. destruct (comes_from z blk' i' B I) as [p _ P|y blk i L K N|bf i L K _].
    + apply phi_facts in P as (M1 & _ & n & y & Y & E & _). rewrite E in J. destruct J as [<-|[]]. left. split; [apply outs_def; eapply nth_error_In; eauto|auto].
    + rewrite (kept_outs y blk i L K N) in J. left. destruct (c_result y blk i x L K N J) as (D & O). split; [exact D|tauto].
    + rewrite (inner_outs z bf i L K) in J. right. eapply f_result; eauto.
Qed.
Lemma other_def c0 x : c0 <> c -> c0 <> Some f -> (defines_at ob' c0 x <-> defines_at ob c0 x).
Proof.
  intros N1 N2. assert (BB : forall y, block_at ob' c0 y = block_at ob c0 y) by (intros y; now apply B2). split; intros D.
  - apply def_cases in D as [I|(z & blk' & i' & B & I & J)]; [rewrite args' in I by exact N2; now apply args_def|]. rewrite BB in B. right. exists z, blk', i'. auto.
  - apply def_cases in D as [I|(z & blk' & i' & B & I & J)]; [rewrite <- args' in I by exact N2; now apply args_def|]. rewrite <- BB in B. right. exists z, blk', i'. auto.
Qed.
Lemma no_def x : ~ defines_at ob' (Some f) x.
Proof.
  intros D. apply def_cases in D as [I|(z & blk' & i' & B & _)]; [cbn in I; now rewrite gone in I|]. unfold block_at, blocks_at in B. now rewrite gone in B.
Qed.
Lemma result_block g0 x : In x (results g0) -> NoDup (map fst (cl_blocks g0)) -> exists y blk i, lookup y (cl_blocks g0) = Some blk /\ In i (cb_instrs blk) /\ In x (li_outs i).
Proof.
  intros I ND. unfold results in I. apply in_flat_map in I as ([y blk] & I & J). apply in_flat_map in J as (i & J & K). exists y, blk, i. split; [|auto]. now apply lookup_NoDup.
Qed.
Lemma kept_defined x : kept x -> defines_at ob' c x.
Proof.
  intros [(D & O)|(D & N)].
  - apply def_cases in D as [I|(z & blk & i & B & I & J)]; [rewrite <- args' in I by apply CF; now apply args_def|]. rewrite block_c in B.
    destruct (string_dec z id) as [->|Nz].
    + rewrite LB in B. injection B as <-. rewrite b_split in I. apply in_app_iff in I as [I|[<-|I]].
      * right. exists (first_id id), (rename_block ρ (before_call id b pos start)), (rename_instr ρ i). split; [apply blk_first|]. split; [apply (in_map (rename_instr ρ) pre i I)|].
        rewrite (kept_outs id b); auto; [rewrite b_split; apply in_app_iff; now left|now apply pre_not_call].
      * specialize (O J). pose proof PHIS as PH. assert (Q : Nat.ltb 1 (length exits) = true) by now apply Nat.ltb_lt. rewrite Q in PH. apply In_nth_error in J as (n & J).
        assert (E : exists p, In p phis /\ li_outs p = [x]).
        { assert (C : nth_error (combine (seq 0 (length outs)) outs) n = Some (n, x)).
          { clear -J. assert (G : forall l s m, nth_error l m = Some x -> nth_error (combine (seq s (length l)) l) m = Some (s + m, x)); [|apply (G outs 0 n J)].
            induction l as [|a l IH]; intros s [|m] H; cbn in *; try discriminate; [injection H as ->; do 2 f_equal; lia|]. rewrite (IH (S s) m H). do 2 f_equal. lia. }
          clear -PH C. assert (G : forall la lp, Forall2 (phi_for (map (fun e => rename_var_list σ (ret e)) exits)) la lp -> forall m, nth_error la m = Some (n, x) -> exists p, In p lp /\ li_outs p = [x]).
          { induction 1 as [|a p la lp (_ & E & _) H IH]; intros [|m] Q; cbn in Q; try discriminate; [injection Q as ->; exists p; split; [now left|exact E]|]. apply IH in Q as (q & I & Q). exists q. split; [now right|exact Q]. }
          destruct (G _ _ PH _ C) as (p & I & E). exists p. split; [now apply in_rev|exact E]. }
        destruct E as (p & I & E). right. exists (second_id id), (rename_block ρ (after_call id b pos ff phis)), p. split; [apply blk_second|]. split; [rewrite second_instrs; apply in_app_iff; now left|rewrite E; now left].
      * right. exists (second_id id), (rename_block ρ (after_call id b pos ff phis)), (rename_instr ρ i). split; [apply blk_second|]. split; [rewrite second_instrs; apply in_app_iff; right; now apply in_map|].
        rewrite (kept_outs id b); auto; [rewrite b_split; apply in_app_iff; right; now right|now apply post_not_call].
    + right. exists z, (rename_block ρ (edit id blk)), (rename_instr ρ i). split; [now apply blk_other|]. split; [apply (in_map (rename_instr ρ) (cb_instrs blk) i I)|]. rewrite (kept_outs z blk); auto. eapply other_not_call; eauto.
  - apply def_cases in D as [I|(z & bf & i & B & I & J)]; [unfold arguments in I; rewrite (oc_function _ _ _ _ _ _ _ OC) in I; contradiction|]. rewrite block_f in B.
    right. exists z, (final id call ff ret start z bf), (τ i). split; [now apply blk_inner|]. split; [|now rewrite (inner_outs z bf)]. rewrite fin_instrs. destruct (mem z exits) eqn:Mz; [|exact (in_map τ _ _ I)].
    destruct (exit_instrs z bf B Mz) as (p & l & E & O & _). rewrite E, map_app. cbn [map]. rewrite removelast_last. rewrite E in I. apply in_app_iff in I as [I|[<-|[]]]; [exact (in_map τ _ _ I)|].
    exfalso. assert (T : cb_type bf = "FunctionReturn") by (now apply (exits_types z bf B)). destruct (oo_exits _ OO _ _ _ _ KF B) as (_ & _ & X & _). destruct (X T) as (_ & p2 & vs & E2). rewrite E in E2. apply app_inj_tail in E2 as (_ & ->). destruct J.
Qed.
Lemma unread y : In y outs -> exits = [] -> ~ reads_at ob c y.
Proof.
  intros I E. destruct (ca_stuck _ CA c id b pre call post k) as (_ & _ & U); [rewrite block_c; exact LB|apply b_split|rewrite call_op; apply (oc_function _ _ _ _ _ _ _ OC)|exact E|]. now apply U.
Qed.
Lemma number_exits : exits = [] \/ (exists e, exits = [e]) \/ 1 < length exits.
Proof. generalize exits as l. intros [|e [|e2 l]]; [now left|right; left; now exists e|right; right; cbn; lia]. Qed.
(** What the variables read in the caller and in the function become. *)
Lemma returned_out y : In y outs -> (exits = [] /\ rename_var ρ y = y) \/ (1 < length exits /\ rename_var ρ y = y) \/ exists e t, exits = [e] /\ In t (ret e) /\ rename_var ρ y = rename_var σ t.
Proof.
  intros I. destruct number_exits as [E|[(e & E)|L]].
  - left. split; [exact E|]. apply ren_absent. unfold results_to_returned. cbn [f_blocks]. now rewrite E.
  - right. right. apply In_nth_error in I as (n & Y). destruct (nth_error (ret e) n) as [t|] eqn:T.
    + exists e, t. split; [exact E|]. split; [eapply nth_error_In; eauto|]. eapply ρ_out; eauto.
    + exfalso. destruct (in_returns _ _ _ _ _ _ _ INL e) as (be & p & _ & _ & _ & _ & Q); [cbn [f_blocks]; rewrite E; now left|]. apply nth_error_None in T. assert (n < length outs) by (apply nth_error_Some; congruence). lia.
  - right. left. split; [exact L|]. apply ren_absent. now rewrite (many_exits L).
Qed.
Lemma name_f t : reads_at ob (Some f) t -> prefix "0x" (rename_var σ t) = true \/ (~ In t (fn_args k) /\ rename_var σ t = t /\ defines_at ob (Some f) t)
  \/ (In (rename_var σ t) (li_ins call) /\ prefix "0x" (rename_var σ t) = false /\ defines_at ob c (rename_var σ t) /\ ~ In (rename_var σ t) outs).
Proof.
  intros R. destruct (σ_kinds t R) as [P|[P|(I & P)]]; [auto|auto|]. right. right. split; [exact I|]. split; [exact P|]. split; [|now apply σ_not_out].
  destruct (read_def c _ (ins_read _ I)) as [Q|(_ & Q)]; [congruence|exact Q].
Qed.
Lemma kept_f t : reads_at ob (Some f) t -> prefix "0x" (rename_var σ t) = true \/ kept (rename_var σ t).
Proof. intros R. destruct (name_f t R) as [P|[(N & E & D)|(_ & _ & D & N)]]; [now left|right; right; now rewrite E|right; left; tauto]. Qed.
Lemma kept_c y : reads_at ob c y -> prefix "0x" (rename_var ρ y) = true \/ kept (rename_var ρ y).
Proof.
  intros R. destruct (in_dec string_dec y outs) as [I|I].
  - destruct (returned_out y I) as [(E & _)|[(L & ->)|(e & t & E & T & ->)]]; [now apply unread in R|right; left; split; [now apply outs_def|auto]|].
    apply kept_f. apply (return_read e); [rewrite E; now left|exact T].
  - rewrite ρ_other by exact I. destruct (read_def _ _ R) as [P|(_ & D)]; [now left|right; left; tauto].
Qed.
Lemma read' x : reads_at ob' c x -> (exists y, reads_at ob c y /\ x = rename_var ρ y) \/ (exists t, reads_at ob (Some f) t /\ x = rename_var σ t).
Proof.
  intros (z & blk' & B & H). rewrite B1 in B. assert (CC : forall i', In i' (cb_instrs blk') -> In x (li_ins i') -> (exists y, reads_at ob c y /\ x = rename_var ρ y) \/ (exists t, reads_at ob (Some f) t /\ x = rename_var σ t)).
  { intros i' I J. destruct (comes_from z blk' i' B I) as [p _ P|y blk i L K N|bf i L K _].
    - apply phi_facts in P as (_ & _ & n & y & _ & _ & FA). right. assert (G : exists e t, In e exits /\ nth_error (ret e) n = Some t /\ x = rename_var σ t).
      { clear -FA J. revert J. induction FA as [|e v es vs (t & T & ->) FA IH]; [intros []|]. intros [<-|J]; [exists e, t; split; [now left|auto]|]. destruct (IH J) as (e' & t' & I & Q). exists e', t'. split; [now right|exact Q]. }
      destruct G as (e & t & I' & T & ->). exists t. split; [|reflexivity]. apply (return_read e); [exact I'|eapply nth_error_In; eauto].
    - cbn in J. apply in_map_iff in J as (w & <- & J). left. exists w. split; [|reflexivity]. exists y, blk. rewrite block_c. split; [exact L|]. left. eauto.
    - rewrite (inner_ins z bf i L K) in J. apply in_map_iff in J as (w & <- & J). right. exists w. split; [|reflexivity]. exists z, bf. rewrite block_f. split; [exact L|]. left. eauto. }
  destruct H as [(i' & I & J)|C]; [now apply (CC i')|].
  destruct (block_cases z blk' B) as [(-> & ->)|[(-> & ->)|[(bf & LF & ->)|(blk & N & LX & ->)]]].
  - change (option_map (rename_var ρ) (cb_cond b) = Some x) in C. destruct (cb_cond b) as [w|] eqn:Ew; [|discriminate]. cbn in C. injection C as <-. left. exists w. split; [|reflexivity]. exists id, b. rewrite block_c. auto.
  - discriminate.
  - destruct (fin_rest z bf) as (_ & Q & _). rewrite Q in C. destruct (cb_cond bf) as [w|] eqn:Ew; [|discriminate]. cbn in C. injection C as <-. assert (R : reads_at ob (Some f) w) by (exists z, bf; rewrite block_f; auto). right. exists w. split; [exact R|]. now apply τ_read.
  - change (option_map (rename_var ρ) (cb_cond blk) = Some x) in C. destruct (cb_cond blk) as [w|] eqn:Ew; [|discriminate]. cbn in C. injection C as <-. left. exists w. split; [|reflexivity]. exists z, blk. rewrite block_c. auto.
Qed.
Lemma kept_read x : reads_at ob' c x -> prefix "0x" x = true \/ kept x.
Proof. intros R. apply read' in R as [(y & R & ->)|(t & R & ->)]; [now apply kept_c|now apply kept_f]. Qed.
Lemma other_read c0 x : c0 <> c -> c0 <> Some f -> reads_at ob' c0 x <-> reads_at ob c0 x.
Proof. intros N1 N2. unfold reads_at. split; intros (z & blk & B & H); exists z, blk; (split; [|exact H]); [rewrite <- B2|rewrite B2]; assumption. Qed.
Lemma no_block z : block_at ob' (Some f) z = None.
Proof. unfold block_at, blocks_at. now rewrite gone. Qed.
Lemma component_cases c0 : c0 = c \/ c0 = Some f \/ (c0 <> c /\ c0 <> Some f).
Proof. assert (D : forall a b : option string, {a = b} + {a <> b}) by (decide equality; apply string_dec). destruct (D c0 c), (D c0 (Some f)); tauto. Qed.
Lemma keep_scoped : scoped ob'.
Proof.
  intros c0 x R P. destruct (component_cases c0) as [->|[->|(N1 & N2)]].
  - destruct (kept_read x R) as [Q|K]; [congruence|now apply kept_defined].
  - destruct R as (z & blk & B & _). now rewrite no_block in B.
  - apply other_def; auto. apply (ssa_scoped _ SS); auto. now apply other_read.
Qed.
Lemma keep_apart c1 c2 x : defines_at ob' c1 x -> defines_at ob' c2 x -> c1 = c2.
Proof.
  assert (G : forall c0, defines_at ob' c0 x -> c0 <> Some f /\ ((c0 = c /\ kept x) \/ (c0 <> c /\ defines_at ob c0 x))).
  { intros c0 D. destruct (component_cases c0) as [->|[->|(N1 & N2)]]; [split; [apply CF|left; split; [reflexivity|now apply defined']]|now apply no_def in D|]. split; [exact N2|]. right. split; [exact N1|]. now apply other_def. }
  intros D1 D2. apply G in D1 as (N1 & D1), D2 as (N2 & D2). destruct D1 as [(-> & D1)|(M1 & D1)], D2 as [(-> & D2)|(M2 & D2)]; [reflexivity| | |].
  - destruct D1 as [(D1 & _)|(D1 & _)]; [now apply (ssa_apart _ SS _ _ x)|]. elim N2. eapply (ssa_apart _ SS); eauto.
  - destruct D2 as [(D2 & _)|(D2 & _)]; [now apply (ssa_apart _ SS _ _ x)|]. elim N1. eapply (ssa_apart _ SS); eauto.
  - now apply (ssa_apart _ SS _ _ x).
Qed.
Lemma keep_names c0 x : defines_at ob' c0 x -> prefix "0x" x = false.
Proof.
  intros D. destruct (component_cases c0) as [->|[->|(N1 & N2)]]; [apply defined' in D as [(D & _)|(D & _)]; eapply (ssa_names _ SS); eauto|now apply no_def in D|]. apply other_def in D; auto. eapply (ssa_names _ SS); eauto.
Qed.

Lemma NoDup_app_intro {A} (l1 l2 : list A) : NoDup l1 -> NoDup l2 -> (forall x, In x l1 -> ~ In x l2) -> NoDup (l1 ++ l2).
Proof.
  induction l1 as [|a l1 IH]; intros N1 N2 D; [exact N2|]. inversion N1 as [|? ? A1 A2]; subst. cbn. constructor; [rewrite in_app_iff; intros [I|I]; [exact (A1 I)|exact (D a (or_introl eq_refl) I)]|].
  apply IH; auto. intros x I. apply D. now right.
Qed.
(** ** Every variable is still defined once *)
Definition outs_of (l : list linstr) : list string := flat_map li_outs l.
Lemma outs_map (h : linstr -> linstr) l : (forall i, In i l -> li_outs (h i) = li_outs i) -> outs_of (map h l) = outs_of l.
Proof. unfold outs_of. induction l as [|i l IH]; intros H; [reflexivity|]. cbn. rewrite H by (now left). f_equal. apply IH. intros j J. apply H. now right. Qed.
Lemma NoDup_results g0 : NoDup (map fst (cl_blocks g0)) -> (forall x blk, lookup x (cl_blocks g0) = Some blk -> NoDup (outs_of (cb_instrs blk))) ->
  (forall x1 x2 blk1 blk2 y, lookup x1 (cl_blocks g0) = Some blk1 -> lookup x2 (cl_blocks g0) = Some blk2 -> In y (outs_of (cb_instrs blk1)) -> In y (outs_of (cb_instrs blk2)) -> x1 = x2) -> NoDup (results g0).
Proof.
  intros ND A B. unfold results. assert (A' : forall x blk, In (x, blk) (cl_blocks g0) -> NoDup (outs_of (cb_instrs blk))) by (intros x blk I; apply (A x); now apply lookup_NoDup).
  assert (B' : forall x1 x2 blk1 blk2 y, In (x1, blk1) (cl_blocks g0) -> In (x2, blk2) (cl_blocks g0) -> In y (outs_of (cb_instrs blk1)) -> In y (outs_of (cb_instrs blk2)) -> x1 = x2).
  { intros x1 x2 blk1 blk2 y I1 I2. apply B; now apply lookup_NoDup. }
  clear A B. revert ND A' B'. generalize (cl_blocks g0) as l. induction l as [|[x blk] l IH]; intros ND A B; [constructor|]. cbn [flat_map snd]. inversion ND as [|? ? N1 N2]; subst.
  apply NoDup_app_intro.
  - apply (A x). now left.
  - apply IH; [exact N2|intros x1 b1 I; apply (A x1); now right|intros x1 x2 b1 b2 y I1 I2; apply B; now right].
  - intros y I J. apply in_flat_map in J as ([x2 b2] & J & J2). assert (x = x2) by (apply (B x x2 blk b2 y); [now left|now right|exact I|exact J2]). subst x2. apply N1. apply (in_map fst) in J. exact J.
Qed.
Lemma in_two g0 x1 x2 blk1 blk2 y : NoDup (results g0) -> lookup x1 (cl_blocks g0) = Some blk1 -> lookup x2 (cl_blocks g0) = Some blk2 -> In y (outs_of (cb_instrs blk1)) -> In y (outs_of (cb_instrs blk2)) -> x1 = x2.
Proof.
  intros N L1 L2 I1 I2. apply in_flat_map in I1 as (i1 & I1 & J1), I2 as (i2 & I2 & J2). destruct (List.in_split _ _ I1) as (p1 & q1 & E1), (List.in_split _ _ I2) as (p2 & q2 & E2).
  now destruct (result_once g0 x1 blk1 p1 i1 q1 x2 blk2 p2 i2 q2 y N L1 E1 J1 L2 E2 J2) as (-> & _).
Qed.
Lemma block_once g0 x blk : NoDup (results g0) -> lookup x (cl_blocks g0) = Some blk -> NoDup (outs_of (cb_instrs blk)).
Proof.
  intros N L. apply lookup_In in L. unfold results in N. destruct (List.in_split _ _ L) as (p & q & E). rewrite E, flat_map_app in N. apply NoDup_parts in N as (_ & _ & N). cbn in N. now apply NoDup_parts in N.
Qed.
Lemma phis_outs : outs_of phis = (if Nat.ltb 1 (length exits) then rev outs else []).
Proof.
  assert (O : forall p, In p phis -> exists y, li_outs p = [y]) by (intros p I; apply phi_facts in I as (_ & _ & n & y & _ & E & _); eauto).
  pose proof PHIS as PH. destruct (Nat.ltb 1 (length exits)); [|rewrite PH; reflexivity].
  assert (G : forall la lp, Forall2 (phi_for (map (fun e => rename_var_list σ (ret e)) exits)) la lp -> outs_of lp = map snd la).
  { induction 1 as [|a p la lp (_ & E & _) H IH]; [reflexivity|]. cbn. rewrite E. cbn. now rewrite <- IH. }
  apply G in PH. assert (S : forall (l : list string) s, map snd (combine (seq s (length l)) l) = l) by (clear; induction l as [|a l IH]; intros s; [reflexivity|]; cbn; now rewrite IH).
  rewrite S in PH. rewrite <- PH, <- (rev_involutive phis). rewrite rev_involutive.
  revert O. clear. induction phis as [|p l IH]; intros O; [reflexivity|].
  cbn. unfold outs_of in *. rewrite flat_map_app, rev_app_distr, <- IH by (intros q I; apply O; now right). cbn. destruct (O p (or_introl eq_refl)) as (y & E). rewrite E. reflexivity.
Qed.
Lemma RC : NoDup (results g). Proof. apply (results_once ob c g KG SS). Qed.
Lemma RF : NoDup (results F). Proof. apply (results_once ob (Some f) F KF SS). Qed.
Lemma b_outs : NoDup (outs_of pre) /\ NoDup outs /\ NoDup (outs_of post) /\ (forall y, In y (outs_of pre) -> ~ In y outs /\ ~ In y (outs_of post)) /\ (forall y, In y outs -> ~ In y (outs_of post)).
Proof.
  pose proof (block_once g id b RC LB) as N. rewrite b_split in N. unfold outs_of in N at 1. rewrite flat_map_app in N. cbn in N. apply NoDup_parts in N as (A & B & N). apply NoDup_parts in N as (D & E & N).
  repeat split; auto; intros J; apply (B y H); apply in_app_iff; [now left|now right].
Qed.
Lemma outs_pre : outs_of (map (rename_instr ρ) pre) = outs_of pre.
Proof. apply outs_map. intros i I. apply (kept_outs id b); [exact LB|rewrite b_split; apply in_app_iff; now left|now apply pre_not_call]. Qed.
Lemma outs_post : outs_of (map (rename_instr ρ) post) = outs_of post.
Proof. apply outs_map. intros i I. apply (kept_outs id b); [exact LB|rewrite b_split; apply in_app_iff; right; now right|now apply post_not_call]. Qed.
Lemma outs_other x blk : x <> id -> lookup x (cl_blocks g) = Some blk -> outs_of (map (rename_instr ρ) (cb_instrs blk)) = outs_of (cb_instrs blk).
Proof. intros N L. apply outs_map. intros i I. apply (kept_outs x blk); auto. eapply other_not_call; eauto. Qed.
Lemma outs_inner x bf : lookup x (cl_blocks F) = Some bf -> outs_of (cb_instrs (final id call ff ret start x bf)) = outs_of (cb_instrs bf).
Proof.
  intros L. rewrite fin_instrs. assert (A : outs_of (map τ (cb_instrs bf)) = outs_of (cb_instrs bf)) by (apply outs_map; intros i I; now apply (inner_outs x bf)).
  destruct (mem x exits) eqn:Mx; [|exact A]. destruct (exit_instrs x bf L Mx) as (p & l & E & O & _).
  assert (T : cb_type bf = "FunctionReturn") by (now apply (exits_types x bf L)). destruct (oo_exits _ OO _ _ _ _ KF L) as (_ & _ & X & _). destruct (X T) as (_ & p2 & vs & E2). rewrite E in E2. apply app_inj_tail in E2 as (_ & ->).
  rewrite E, map_app in A. rewrite E, map_app. cbn [map]. rewrite removelast_last. unfold outs_of in *. rewrite !flat_map_app in *. cbn in *. now rewrite !app_nil_r in *.
Qed.
Inductive found (z y : string) : Prop :=
| fo_second : z = second_id id -> In y outs \/ In y (outs_of post) -> found z y
| fo_first : z = first_id id -> In y (outs_of pre) -> found z y
| fo_inner bf : lookup z (cl_blocks F) = Some bf -> In y (outs_of (cb_instrs bf)) -> found z y
| fo_other blk : z <> id -> lookup z (cl_blocks g) = Some blk -> In y (outs_of (cb_instrs blk)) -> found z y.
Lemma found_in z blk' y : lookup z (cl_blocks g') = Some blk' -> In y (outs_of (cb_instrs blk')) -> found z y.
Proof.
  intros L I. destruct (block_cases z blk' L) as [(-> & ->)|[(-> & ->)|[(bf & LF & ->)|(blk & N & LX & ->)]]].
  - rewrite second_instrs in I. unfold outs_of in I at 1. rewrite flat_map_app in I. apply in_app_iff in I. apply fo_second; [reflexivity|]. destruct I as [I|I]; [left|right].
    + fold (outs_of phis) in I. rewrite phis_outs in I. destruct (Nat.ltb 1 (length exits)); [now apply in_rev|destruct I].
    + fold (outs_of (map (rename_instr ρ) post)) in I. now rewrite outs_post in I.
  - apply fo_first; [reflexivity|]. change (In y (outs_of (map (rename_instr ρ) pre))) in I. now rewrite outs_pre in I.
  - eapply fo_inner; [exact LF|]. now rewrite outs_inner in I.
  - eapply fo_other; [exact N|exact LX|]. change (In y (outs_of (map (rename_instr ρ) (cb_instrs blk)))) in I. now rewrite (outs_other z blk) in I.
Qed.
Lemma found_where z y : found z y -> (In y (results g) /\ exists z0 blk, lookup z0 (cl_blocks g) = Some blk /\ In y (outs_of (cb_instrs blk)) /\ (z0 = id /\ (z = first_id id \/ z = second_id id) \/ z0 <> id /\ z = z0))
  \/ (defines_at ob (Some f) y /\ exists bf, lookup z (cl_blocks F) = Some bf /\ In y (outs_of (cb_instrs bf))).
Proof.
  assert (RB : forall z0 blk, lookup z0 (cl_blocks g) = Some blk -> In y (outs_of (cb_instrs blk)) -> In y (results g)).
  { intros z0 blk L I. apply in_flat_map in I as (i & I & J). eapply result_In; eauto. }
  intros [-> H| -> H|bf L H|blk N L H].
  - left. assert (I : In y (outs_of (cb_instrs b))) by (rewrite b_split; unfold outs_of; rewrite flat_map_app; apply in_app_iff; right; cbn; apply in_app_iff; exact H). split; [eauto|]. exists id, b. auto 6.
  - left. assert (I : In y (outs_of (cb_instrs b))) by (rewrite b_split; unfold outs_of; rewrite flat_map_app; apply in_app_iff; left; exact H). split; [eauto|]. exists id, b. auto 6.
  - right. split; [|eauto]. apply in_flat_map in H as (i & I & J). now apply (f_result z bf i).
  - left. split; [eauto|]. exists z, blk. auto 6.
Qed.
Lemma results_def y : In y (results g) -> defines_at ob c y.
Proof.
  intros I. destruct (result_block g y I) as (z & blk & i & L & J & K); [apply (c_keys _ (oo_consistent _ OO _ _ KG))|]. right. exists z, blk, i. now rewrite block_c.
Qed.
Lemma found_once z1 z2 y : found z1 y -> found z2 y -> z1 = z2.
Proof.
  intros H1 H2. destruct (found_where z1 y H1) as [(R1 & x1 & k1 & L1 & I1 & D1)|(D1 & k1 & L1 & I1)], (found_where z2 y H2) as [(R2 & x2 & k2 & L2 & I2 & D2)|(D2 & k2 & L2 & I2)].
  - assert (x1 = x2) by (eapply in_two; eauto using RC). subst x2. destruct D1 as [(-> & D1)|(N1 & ->)], D2 as [(E2 & D2)|(N2 & D2)]; try congruence.
    destruct b_outs as (_ & _ & _ & Q & _). assert (Q2 : forall z, z = first_id id -> found z y -> In y (outs_of pre)).
    { intros z -> [E _|_ H|bf L _|blk N L _]; [destruct (halves_ne id E)|exact H|destruct (in_f _ _ L); congruence|destruct (in_g _ _ L); congruence]. }
    assert (Q3 : forall z, z = second_id id -> found z y -> In y outs \/ In y (outs_of post)).
    { intros z -> [_ H|E _|bf L _|blk N L _]; [exact H|symmetry in E; destruct (halves_ne id E)|destruct (in_f _ _ L) as (_ & ? & _); congruence|destruct (in_g _ _ L) as (_ & ? & _); congruence]. }
    destruct D1 as [D1|D1], D2 as [D2|D2]; try congruence.
    + apply (Q2 _ D1) in H1. apply (Q3 _ D2) in H2. apply Q in H1. tauto.
    + apply (Q3 _ D1) in H1. apply (Q2 _ D2) in H2. apply Q in H2. tauto.
  - apply results_def in R1. destruct (apart _ R1 D2).
  - apply results_def in R2. destruct (apart _ R2 D1).
  - eapply in_two; eauto using RF.
Qed.
Lemma keep_once c0 g0 : JumpSpec.component ob' c0 g0 -> NoDup (arguments ob' c0 ++ results g0).
Proof.
  intros K0. apply KO in K0 as [(-> & ->)|(N1 & N2 & K0)]; [|rewrite args' by exact N2; now apply (ssa_once _ SS)].
  rewrite args' by apply CF. pose proof (ssa_once _ SS c g KG) as NN. apply NoDup_parts in NN as (NA & DA & _). apply NoDup_app_intro; [exact NA| |].
  - apply NoDup_results; [apply (c_keys _ CG')| |intros x1 x2 k1 k2 y L1 L2 I1 I2; eapply found_once; eapply found_in; eauto].
    intros z blk' L. destruct b_outs as (P1 & P2 & P3 & P4 & P5). destruct (block_cases z blk' L) as [(-> & ->)|[(-> & ->)|[(bf & LF & ->)|(blk & N & LX & ->)]]].
    + rewrite second_instrs. unfold outs_of. rewrite flat_map_app. fold (outs_of phis). fold (outs_of (map (rename_instr ρ) post)). rewrite outs_post, phis_outs. destruct (Nat.ltb 1 (length exits)); [|exact P3].
      apply NoDup_app_intro; [now apply NoDup_rev|exact P3|]. intros y I. apply in_rev in I. auto.
    + change (NoDup (outs_of (map (rename_instr ρ) pre))). now rewrite outs_pre.
    + rewrite outs_inner by exact LF. apply (block_once F z); [exact RF|exact LF].
    + change (NoDup (outs_of (map (rename_instr ρ) (cb_instrs blk)))). rewrite (outs_other z blk N LX). apply (block_once g z); [exact RC|exact LX].
  - intros y A I. destruct (result_block g' y I (c_keys _ CG')) as (z & blk' & i & L & J & K). assert (FY : found z y) by (eapply found_in; [exact L|]; apply in_flat_map; eauto).
    apply found_where in FY as [(R & _)|(D & _)]; [exact (DA y A R)|]. apply args_def in A. exact (apart _ A D).
Qed.

(** ** Points of the new component *)
Lemma caller_step x i rest x' i' rest' : place x (i :: rest) x' (i' :: rest') -> exists blk, lookup x (cl_blocks g) = Some blk /\ In i (cb_instrs blk) /\ i' = rename_instr ρ i /\ li_op i <> f /\ place x rest x' rest'.
Proof.
  intros P. inversion P as [x0 blk r N L (p & E) Q1 Q2 Q3 Q4|r (p & E) Q1 Q2 Q3 Q4|r (p & E) Q1 Q2 Q3 Q4]; subst.
  - exists blk. assert (In i (cb_instrs blk)) by (rewrite E; apply in_app_iff; right; now left). split; [exact L|]. split; [assumption|]. split; [reflexivity|]. split; [eapply other_not_call; eauto|]. econstructor; eauto. exists (p ++ [i]). now rewrite <- app_assoc.
  - destruct r as [|j r]; [discriminate|]. cbn in Q2, Q4. injection Q2 as <- <-. injection Q4 as <- <-. assert (J : In j pre) by (rewrite E; apply in_app_iff; right; now left). exists b. split; [exact LB|]. split; [rewrite b_split; apply in_app_iff; now left|].
    split; [reflexivity|]. split; [now apply pre_not_call|]. constructor. exists (p ++ [j]). now rewrite <- app_assoc.
  - assert (J : In i post) by (rewrite E; apply in_app_iff; right; now left). exists b. split; [exact LB|]. split; [rewrite b_split; apply in_app_iff; right; now right|].
    split; [reflexivity|]. split; [now apply post_not_call|]. constructor. exists (p ++ [i]). now rewrite <- app_assoc.
Qed.
Lemma place_shape x rest z : place x rest z [] -> rest = [] /\ z <> first_id id \/ x = id /\ z = first_id id /\ rest = call :: post.
Proof.
  intros P. inversion P as [x0 blk r N L S Q1 Q2 Q3 Q4|r S Q1 Q2 Q3 Q4|r S Q1 Q2 Q3 Q4]; subst.
  - left. apply map_eq_nil in Q4. subst. split; [reflexivity|]. now apply in_g in L.
  - right. apply map_eq_nil in Q4. subst. auto.
  - left. apply map_eq_nil in Q4. subst. split; [reflexivity|]. intros Q. symmetry in Q. destruct (halves_ne id Q).
Qed.
Lemma place_cons x i rest z rest' : place x (i :: rest) z rest' -> (exists i' r', rest' = i' :: r') \/ (x = id /\ z = first_id id /\ rest' = [] /\ i = call /\ rest = post).
Proof.
  intros P. inversion P as [x0 blk r N L S Q1 Q2 Q3 Q4|r S Q1 Q2 Q3 Q4|r S Q1 Q2 Q3 Q4]; subst; cbn [map]; eauto.
  destruct r as [|j r]; cbn in *; [|eauto]. injection Q2 as <- <-. auto 6.
Qed.
Lemma place_lookup x rest z rest' : place x rest z rest' -> exists blk, lookup x (cl_blocks g) = Some blk.
Proof. intros P. inversion P; subst; eauto. Qed.
Lemma phis_second : phis_of (cb_instrs (rename_block ρ (after_call id b pos ff phis))) = (phis, map (rename_instr ρ) post).
Proof.
  rewrite second_instrs. rewrite phis_of_app.
  - assert (O : forall p, In p phis -> li_op p = "PhiFunction") by (intros p I; now apply phi_facts in I). assert (E : phis_of phis = (phis, [])); [|rewrite E; reflexivity].
    revert O. clear. induction phis as [|p l IH]; intros O; [reflexivity|]. cbn [phis_of]. rewrite (O p) by (now left). cbn. rewrite IH by (intros q I; apply O; now right). reflexivity.
  - intros i I. apply in_map_iff in I as (j & <- & I). apply (post_no_phi j). now right.
Qed.
(** Entering a block of the caller. *)
Lemma goes_to y blk : lookup y (cl_blocks g) = Some blk -> exists blk' rest', lookup (renamed id (first_id id) y) (cl_blocks g') = Some blk'
  /\ phis_of (cb_instrs blk') = (map (rename_instr ρ) (fst (phis_of (cb_instrs blk))), rest') /\ place y (snd (phis_of (cb_instrs blk))) (renamed id (first_id id) y) rest'
  /\ cb_entries blk' = map (renamed id (second_id id)) (cb_entries blk).
Proof.
  intros L. destruct (string_dec y id) as [->|N].
  - assert (E : renamed id (first_id id) id = first_id id) by (unfold renamed; now rewrite String.eqb_refl). rewrite E. clear E. rewrite LB in L. injection L as <-. exists (rename_block ρ (before_call id b pos start)), (map (rename_instr ρ) (snd (phis_of pre))). rewrite <- B1. split; [apply blk_first|].
    change (cb_instrs (rename_block ρ (before_call id b pos start))) with (map (rename_instr ρ) pre). rewrite phis_rename, phis_b. cbn [fst snd]. split; [reflexivity|]. split; [apply pl_before, rest_suffix|].
    change (cb_entries b = map (renamed id (second_id id)) (cb_entries b)). rewrite <- (map_id (cb_entries b)) at 1. apply map_ext_in. intros y I. unfold renamed. destruct (String.eqb_spec y id) as [->|]; [|reflexivity].
    exfalso. destruct (entry_key id b id LB I) as (_ & bb & L & J). rewrite LB in L. injection L as <-. exact (no_self id J eq_refl).
  - assert (E : renamed id (first_id id) y = y) by (unfold renamed; destruct (String.eqb_spec y id); congruence). rewrite E. clear E. exists (rename_block ρ (edit id blk)), (map (rename_instr ρ) (snd (phis_of (cb_instrs blk)))). rewrite <- B1. split; [now apply blk_other|].
    change (cb_instrs (rename_block ρ (edit id blk))) with (map (rename_instr ρ) (cb_instrs blk)). rewrite phis_rename. split; [reflexivity|]. split; [econstructor; eauto; apply rest_suffix|reflexivity].
Qed.
(** Leaving a block of the caller. *)
Lemma leaves_from x z blk' : place x [] z [] -> lookup z (cl_blocks g') = Some blk' -> exists blk, lookup x (cl_blocks g) = Some blk /\ z = renamed id (second_id id) x
  /\ successors blk' = map (renamed id (first_id id)) (successors blk) /\ cb_cond blk' = option_map (rename_var ρ) (cb_cond blk) /\ cb_type blk' = cb_type blk.
Proof.
  intros P L'. unfold renamed at 1. inversion P as [x0 blk r N L S Q1 Q2 Q3 Q4|r S Q1 Q2 Q3 Q4|r S Q1 Q2 Q3 Q4]; subst.
  - exists blk. destruct (String.eqb_spec z id); [contradiction|]. rewrite <- B1, (blk_other z blk N L) in L'. assert (blk' = rename_block ρ (edit id blk)) by congruence. subst blk'. split; [exact L|]. split; [reflexivity|].
    split; [exact (successors_relink id (first_id id) blk)|]. split; reflexivity.
  - destruct r; discriminate.
  - exists b. rewrite String.eqb_refl. rewrite <- B1, blk_second in L'. assert (blk' = rename_block ρ (after_call id b pos ff phis)) by congruence. subst blk'. split; [exact LB|]. split; [reflexivity|].
    split; [|split; reflexivity]. change (successors b = map (renamed id (first_id id)) (successors b)). rewrite <- (map_id (successors b)) at 1. apply map_ext_in. intros y I. unfold renamed.
    destruct (String.eqb_spec y id) as [->|]; [exfalso; exact (no_self id I eq_refl)|reflexivity].
Qed.
Lemma succ_key g0 x blk y : consistent g0 -> lookup x (cl_blocks g0) = Some blk -> In y (successors blk) -> exists by_, lookup y (cl_blocks g0) = Some by_.
Proof.
  intros C L I. assert (P : 0 < departures g0 x y) by (unfold departures; rewrite L; now apply count_In). rewrite <- (c_links _ C) in P. unfold arrivals in P.
  destruct (lookup y (cl_blocks g0)) as [by_|] eqn:Q; [eauto|lia].
Qed.
Lemma CG : consistent g. Proof. apply (oo_consistent _ OO _ _ KG). Qed.
Lemma CFF : consistent F. Proof. apply (oo_consistent _ OO _ _ KF). Qed.
(** Blocks of the function. *)
Lemma fin_succ z bf : lookup z (cl_blocks F) = Some bf -> successors (final id call ff ret start z bf) = if mem z exits then [second_id id] else successors bf.
Proof.
  intros L. destruct (fin_rest z bf) as (_ & _ & FT & JT). unfold successors at 1. rewrite FT, JT. destruct (mem z exits) eqn:Mz; [|reflexivity].
  assert (T : cb_type bf = "FunctionReturn") by (now apply (exits_types z bf L)). destruct (oo_exits _ OO _ _ _ _ KF L) as (_ & _ & X & _). destruct (X T) as (S & _). unfold successors in S. apply app_eq_nil in S as (_ & ->). reflexivity.
Qed.
Lemma last_ret z bf p l : lookup z (cl_blocks F) = Some bf -> mem z exits = true -> cb_instrs bf = p ++ [l] -> li_op l = "functionReturn" /\ li_ins l = ret z /\ li_outs l = [].
Proof.
  intros L Mz E. destruct (in_returns _ _ _ _ _ _ _ INL z) as (be & p1 & L1 & (i & E1 & O & R) & _); [now apply mem_In|]. cbn [f_blocks] in L1. rewrite L in L1. injection L1 as <-. rewrite E in E1. apply app_inj_tail in E1 as (-> & ->).
  assert (T : cb_type bf = "FunctionReturn") by (now apply (exits_types z bf L)). destruct (oo_exits _ OO _ _ _ _ KF L) as (_ & _ & X & _). destruct (X T) as (_ & p2 & vs & E2). rewrite E in E2. apply app_inj_tail in E2 as (_ & ->). auto.
Qed.
(** Entering a block of the function. *)
Lemma goes_in z bf : lookup z (cl_blocks F) = Some bf -> exists rest', phis_of (cb_instrs (final id call ff ret start z bf)) = (map τ (fst (phis_of (cb_instrs bf))), rest')
  /\ inner z (snd (phis_of (cb_instrs bf))) rest'.
Proof.
  intros L. rewrite fin_instrs. assert (PM : forall l, phis_of (map τ l) = (map τ (fst (phis_of l)), map τ (snd (phis_of l)))).
  { intros l. rewrite <- map_map, phis_rename, phis_rename. cbn [fst snd]. now rewrite !map_map. }
  destruct (mem z exits) eqn:Mz.
  - destruct (exit_instrs z bf L Mz) as (p & l & E & O & _). rewrite E, map_app. cbn [map]. rewrite removelast_last, PM. rewrite phis_of_app by (intros i [<-|[]]; rewrite O; discriminate). cbn [fst snd].
    eexists. split; [reflexivity|]. exists bf. split; [exact L|]. split; [rewrite E; exists (fst (phis_of p)); rewrite app_assoc; now rewrite <- (phis_of_split p)|]. rewrite Mz.
    exists (snd (phis_of p)), l. destruct (last_ret z bf p l L Mz E) as (_ & R & _). auto.
  - rewrite PM. eexists. split; [reflexivity|]. exists bf. split; [exact L|]. split; [apply rest_suffix|]. now rewrite Mz.
Qed.
Lemma inner_step z i rest i' rest' : inner z (i :: rest) (i' :: rest') -> exists bf, lookup z (cl_blocks F) = Some bf /\ In i (cb_instrs bf) /\ i' = τ i /\ inner z rest rest'.
Proof.
  intros (bf & L & S & H). exists bf. split; [exact L|]. split; [eapply suffix_In; [exact S|now left]|]. destruct (mem z exits) eqn:Mz.
  - destruct H as (r & l & E & O & R & E'). destruct r as [|j r]; [discriminate|]. cbn in E, E'. injection E as -> ->. injection E' as -> ->. split; [reflexivity|]. exists bf. split; [exact L|]. split; [eapply suffix_tail; eauto|]. rewrite Mz. exists r, l. auto.
  - cbn in H. injection H as -> ->. split; [reflexivity|]. exists bf. split; [exact L|]. split; [eapply suffix_tail; eauto|]. now rewrite Mz.
Qed.
Lemma inner_cons z rest i' rest' : inner z rest (i' :: rest') -> exists i r, rest = i :: r.
Proof. intros (bf & L & S & H). destruct (mem z exits); [destruct H as ([|j r] & l & -> & _ & _ & Q); [discriminate|cbn; eauto]|]. destruct rest; [discriminate|eauto]. Qed.
Lemma inner_nil z rest : inner z rest [] -> if mem z exits then exists l, rest = [l] /\ li_ins l = ret z else rest = [].
Proof.
  intros (bf & L & S & H). destruct (mem z exits); [destruct H as ([|j r] & l & -> & _ & R & Q); [exists l; auto|discriminate]|]. now apply eq_sym, map_eq_nil in H.
Qed.
Lemma goes_start : exists bs, lookup start (cl_blocks F) = Some bs /\ phis_of (cb_instrs bs) = ([], cb_instrs bs).
Proof.
  destruct (c_start _ CFF) as (s & S & K). rewrite START in S. injection S as <-. destruct (lookup start (cl_blocks F)) as [bs|] eqn:L; [|exfalso; apply lookup_None in L; contradiction]. exists bs. split; [reflexivity|].
  destruct (cb_instrs bs) as [|i l] eqn:E; [reflexivity|]. rewrite <- E.
  assert (R : reached_without F [] start (snd (phis_of (cb_instrs bs)))) by (apply (ca_reached _ CA (Some f) F); [apply KF|exact L|left; congruence]).
  assert (G : forall x r, reached_without F [] x r -> exists r0, phis_of (cb_instrs bs) = ([], r0)).
  { induction 1 as [s bk r0 S0 L0 P0|x0 i0 r0 _ IH _|b0 bk b1 bk1 ps r0 _ IH _ _ _ _ _]; auto. rewrite START in S0. injection S0 as <-. rewrite L in L0. injection L0 as <-. eauto. }
  destruct (G _ _ R) as (r0 & Q). rewrite Q. f_equal. pose proof (phis_of_split (cb_instrs bs)) as Z. rewrite Q in Z. cbn in Z. congruence.
Qed.
Lemma phis_caller_outs y blk p : lookup y (cl_blocks g) = Some blk -> In p (fst (phis_of (cb_instrs blk))) -> In p (cb_instrs blk) /\ li_op p <> f.
Proof.
  intros L I. split; [rewrite (phis_of_split (cb_instrs blk)); apply in_app_iff; now left|]. rewrite (phis_of_phis _ _ I). intros Q. symmetry in Q. now apply f_reserved in Q.
Qed.
Lemma edge_start y blk : lookup y (cl_blocks g) = Some blk -> y = id -> blk = b. Proof. intros L ->. congruence. Qed.

(** ** What the new paths come from *)
Definition own (x : string) : Prop := defines_at ob c x /\ (In x outs -> 1 < length exits).
Definition seen (X : list string) (z : string) (rest' : list linstr) : Prop :=
  (exists x rest, place x rest z rest' /\ ((forall v, In v X -> own v) -> reached_without g X x rest)
     /\ ((forall v, In v X -> defines_at ob (Some f) v) -> reached_without g outs x rest \/ exists e l, In e exits /\ li_ins l = ret e /\ reached_without F X e [l]))
  \/ (exists rest, inner z rest rest' /\ ((forall v, In v X -> own v) -> reached_without g X id (call :: post)) /\ ((forall v, In v X -> defines_at ob (Some f) v) -> reached_without F X z rest)).
Lemma seen_all X z rest' : reached_without g' X z rest' -> seen X z rest'.
Proof.
  induction 1 as [s blk' r' S L P|z i' r' _ IH N|z blk' z' blz ps r' _ IH L I L' P N].
  - left. rewrite SG' in S. destruct (c_start _ CG) as (s0 & S0 & K0). assert (E : s = renamed id (first_id id) s0).
    { rewrite S0 in S. cbn in S. unfold renamed. rewrite String.eqb_sym in S. destruct (String.eqb s0 id); congruence. }
    apply key_lookup in K0 as (blk & L0). destruct (goes_to s0 blk L0) as (blk2 & r2 & L2 & P2 & PL & _). rewrite <- E in *. rewrite L in L2. assert (blk2 = blk') by congruence. subst blk2. rewrite P in P2.
    assert (E1 : fst (phis_of (cb_instrs blk)) = []) by (apply (map_eq_nil (rename_instr ρ)); congruence). assert (r2 = r') by congruence. subst r2.
    assert (R : forall Y, reached_without g Y s0 (snd (phis_of (cb_instrs blk)))) by (intros Y; eapply rw_start; [exact S0|exact L0|]; rewrite <- E1; now destruct (phis_of (cb_instrs blk))).
    exists s0, (snd (phis_of (cb_instrs blk))). split; [exact PL|]. split; auto.
  - destruct IH as [(x & rest & PL & A & B)|(rest & IN & A & B)].
    + left. destruct rest as [|i rest]; [exfalso; inversion PL as [x0 blk r Nx Lx Sx Q1 Q2 Q3 Q4|r Sx Q1 Q2 Q3 Q4|r Sx Q1 Q2 Q3 Q4]; subst; try discriminate; destruct r; discriminate|].
      destruct (caller_step _ _ _ _ _ _ PL) as (blk & LX & Ii & -> & NF & PL2). exists x, rest. split; [exact PL2|]. rewrite (kept_outs x blk i LX Ii NF) in N. split.
      * intros O. eapply rw_instr; [now apply A|exact N].
      * intros O. destruct (B O) as [R|R]; [left|now right]. eapply rw_instr; [exact R|]. intros y J Q. now apply (c_result x blk i y LX Ii NF) in Q.
    + right. destruct (inner_cons _ _ _ _ IN) as (i & r & ->). destruct (inner_step _ _ _ _ _ IN) as (bf & LF & Ii & -> & IN2). exists r. split; [exact IN2|]. split; [exact A|]. intros O. eapply rw_instr; [now apply B|].
      intros v J. rewrite <- (inner_outs z bf i LF Ii). now apply N.
  - destruct IH as [(x & rest & PL & A & B)|(rest & IN & A & B)].
    + destruct (place_shape _ _ _ PL) as [(-> & NZ)|(-> & -> & ->)].
      * left. destruct (leaves_from x z blk' PL L) as (blk & LX & EZ & SU & _). rewrite SU in I. apply in_map_iff in I as (y & <- & I). destruct (succ_key g x blk y CG LX I) as (by_ & LY).
        destruct (goes_to y by_ LY) as (bl2 & r2 & L2 & P2 & PL2 & _). assert (bl2 = blz) by congruence. subst bl2. rewrite P in P2. assert (r2 = r') by congruence. subst r2. assert (EP : ps = map (rename_instr ρ) (fst (phis_of (cb_instrs by_)))) by congruence.
        assert (EO : outs_of ps = outs_of (fst (phis_of (cb_instrs by_)))) by (rewrite EP; apply outs_map; intros p J; destruct (phis_caller_outs y by_ p LY J); now apply (kept_outs y by_)).
        exists y, (snd (phis_of (cb_instrs by_))). split; [exact PL2|]. split.
        -- intros O. eapply rw_edge; [now apply A|exact LX|exact I|exact LY|apply surjective_pairing|]. intros v J. fold (outs_of (fst (phis_of (cb_instrs by_)))). rewrite <- EO. now apply N.
        -- intros O. destruct (B O) as [R|R]; [left|now right]. eapply rw_edge; [exact R|exact LX|exact I|exact LY|apply surjective_pairing|]. intros v J Q. apply in_flat_map in Q as (p & Q1 & Q2). destruct (phis_caller_outs y by_ p LY Q1) as (Q3 & Q4).
           now apply (c_result y by_ p v LY Q3 Q4) in Q2.
      * right. rewrite <- B1, blk_first in L. assert (blk' = rename_block ρ (before_call id b pos start)) by congruence. subst blk'. destruct I as [<-|[]]. destruct goes_start as (bs & LS & PS). destruct (goes_in start bs LS) as (r2 & P2 & IN).
        rewrite <- B1, (blk_inner start bs LS) in L'. assert (blz = final id call ff ret start start bs) by congruence. subst blz. rewrite P in P2. assert (r2 = r') by congruence. subst r2. exists (snd (phis_of (cb_instrs bs))). split; [exact IN|]. split; [exact A|].
        intros _. eapply rw_start; [exact START|exact LS|]. now rewrite PS.
    + assert (LF : exists bf, lookup z (cl_blocks F) = Some bf) by (destruct IN as (bf & LF & _); eauto). destruct LF as (bf & LF). rewrite <- B1, (blk_inner z bf LF) in L. assert (blk' = final id call ff ret start z bf) by congruence. subst blk'.
      rewrite (fin_succ z bf LF) in I. apply inner_nil in IN. destruct (mem z exits) eqn:Mz.
      * left. destruct I as [<-|[]]. destruct IN as (l & -> & RL). rewrite <- B1, blk_second in L'. assert (blz = rename_block ρ (after_call id b pos ff phis)) by congruence. subst blz. rewrite phis_second in P. assert (ps = phis) by congruence. subst ps. assert (r' = map (rename_instr ρ) post) by congruence. subst r'.
        exists id, post. split; [constructor; apply suffix_refl|]. split.
        -- intros O. eapply rw_instr; [now apply A|]. intros v J Q. apply (N v J). fold (outs_of phis). rewrite phis_outs. destruct (O v J) as (_ & O2). pose proof (proj2 (Nat.ltb_lt _ _) (O2 Q)) as Q2. rewrite Q2. exact (proj1 (in_rev outs v) Q).
        -- intros O. right. exists z, l. split; [now apply mem_In|]. split; [exact RL|]. now apply B.
      * right. subst rest. destruct (succ_key F z bf z' CFF LF I) as (bz & LZ). destruct (goes_in z' bz LZ) as (r2 & P2 & IN). rewrite <- B1, (blk_inner z' bz LZ) in L'. assert (blz = final id call ff ret start z' bz) by congruence. subst blz. rewrite P in P2. assert (r2 = r') by congruence. subst r2.
        exists (snd (phis_of (cb_instrs bz))). split; [exact IN|]. split; [exact A|]. intros O. eapply rw_edge; [now apply B|exact LF|exact I|exact LZ|apply surjective_pairing|].
        intros v J. assert (EP : ps = map τ (fst (phis_of (cb_instrs bz)))) by congruence. assert (EO : outs_of ps = outs_of (fst (phis_of (cb_instrs bz)))).
        { rewrite EP. apply outs_map. intros p J2. apply (inner_outs z' bz); [exact LZ|]. rewrite (phis_of_split (cb_instrs bz)). apply in_app_iff. now left. }
        fold (outs_of (fst (phis_of (cb_instrs bz)))). rewrite <- EO. now apply N.
Qed.
(** ** What is read at the new points *)
Lemma read_caller x rest z rest' v : place x rest z rest' -> read_here g' z rest' v -> exists y, v = rename_var ρ y /\ read_here g x rest y /\ reads_at ob c y.
Proof.
  intros PL R. inversion R as [z0 i' r0 v0 I|z0 blk' v0 L T C|z0 blk' b' blz k0 p v0 L I L' IX J NK]; subst.
  - destruct rest as [|i rest]; [exfalso; inversion PL as [x0 blk r Nx Lx Sx Q1 Q2 Q3 Q4|r Sx Q1 Q2 Q3 Q4|r Sx Q1 Q2 Q3 Q4]; subst; try discriminate; destruct r; discriminate|].
    destruct (caller_step _ _ _ _ _ _ PL) as (blk & LX & Ii & -> & NF & PL2). cbn in I. apply in_map_iff in I as (y & <- & I). exists y. split; [reflexivity|]. split; [now constructor|]. exists x, blk. rewrite block_c. split; [exact LX|]. left. eauto.
  - destruct (place_shape _ _ _ PL) as [(-> & NZ)|(-> & -> & ->)]; [|rewrite <- B1, blk_first in L; assert (blk' = rename_block ρ (before_call id b pos start)) by congruence; subst; discriminate].
    destruct (leaves_from x z blk' PL L) as (blk & LX & EZ & SU & CO & TY). rewrite CO in C. destruct (cb_cond blk) as [y|] eqn:CY; [|discriminate]. cbn in C. exists y. split; [congruence|]. split; [eapply rh_cond; eauto; congruence|]. exists x, blk. rewrite block_c. auto.
  - destruct (place_shape _ _ _ PL) as [(-> & NZ)|(-> & -> & ->)].
    + destruct (leaves_from x z blk' PL L) as (blk & LX & EZ & SU & _). rewrite SU in I. apply in_map_iff in I as (y & <- & I). destruct (succ_key g x blk y CG LX I) as (by_ & LY).
      destruct (goes_to y by_ LY) as (bl2 & r2 & L2 & P2 & PL2 & EN). assert (bl2 = blz) by congruence. subst bl2. rewrite P2 in J. cbn [fst] in J. apply in_map_iff in J as (p0 & <- & J).
      rewrite EZ, EN, index_renamed in IX.
      * cbn in NK. unfold rename_var_list in NK. rewrite nth_error_map in NK. destruct (nth_error (li_ins p0) k0) as [w|] eqn:NW; [|discriminate]. cbn [option_map] in NK. exists w. split; [congruence|]. split; [eapply rh_phi; eauto|].
        exists y, by_. rewrite block_c. split; [exact LY|]. left. exists p0. split; [now apply (phis_caller_outs y by_)|eapply nth_error_In; eauto].
      * now apply in_g in LX.
      * intros Q. destruct (entry_key y by_ _ LY Q) as (Q2 & _). apply key_lookup in Q2 as (? & Q2). apply in_g in Q2 as (_ & Q2 & _). congruence.
    + exfalso. rewrite <- B1, blk_first in L. assert (blk' = rename_block ρ (before_call id b pos start)) by congruence. subst blk'. destruct I as [<-|[]]. destruct goes_start as (bs & LS & PS). destruct (goes_in start bs LS) as (r2 & P2 & IN).
      rewrite <- B1, (blk_inner start bs LS) in L'. assert (blz = final id call ff ret start start bs) by congruence. subst blz. rewrite P2, PS in J. destruct J.
Qed.
Lemma index_nth x : forall l n, index_of x l = Some n -> nth_error l n = Some x.
Proof.
  induction l as [|y l IH]; intros n H; [discriminate|]. cbn in H. destruct (String.eqb_spec y x) as [->|]; [injection H as <-; reflexivity|]. destruct (index_of x l) as [m|]; [|discriminate]. cbn in H. injection H as <-. now apply IH.
Qed.
Lemma read_inner z rest rest' v : inner z rest rest' -> read_here g' z rest' v -> exists t, v = rename_var σ t /\ read_here F z rest t /\ reads_at ob (Some f) t.
Proof.
  intros IN R. inversion R as [z0 i' r0 v0 I|z0 blk' v0 L T C|z0 blk' b' blz k0 p v0 L I L' IX J NK]; subst.
  - destruct (inner_cons _ _ _ _ IN) as (i & r & ->). destruct (inner_step _ _ _ _ _ IN) as (bf & LF & Ii & -> & IN2). rewrite (inner_ins z bf i LF Ii) in I. apply in_map_iff in I as (t & <- & I). exists t. split; [reflexivity|].
    split; [now constructor|]. exists z, bf. rewrite block_f. split; [exact LF|]. left. eauto.
  - assert (LF : exists bf, lookup z (cl_blocks F) = Some bf) by (destruct IN as (bf & LF & _); eauto). destruct LF as (bf & LF). rewrite <- B1, (blk_inner z bf LF) in L. assert (blk' = final id call ff ret start z bf) by congruence. subst blk'.
    destruct (fin_rest z bf) as (TY & CO & _). rewrite CO in C. destruct (cb_cond bf) as [t|] eqn:CT; [|discriminate]. cbn [option_map] in C. assert (Rt : reads_at ob (Some f) t) by (exists z, bf; rewrite block_f; auto). rewrite (τ_read t Rt) in C.
    exists t. split; [congruence|]. split; [|exact Rt]. apply inner_nil in IN. assert (TB : cb_type bf = "conditional") by (rewrite TY in T; destruct (String.eqb (cb_type bf) "FunctionReturn"); [discriminate|exact T]).
    destruct (mem z exits) eqn:Mz; [|subst rest; eapply rh_cond; eauto]. apply (exits_types z bf LF) in Mz. congruence.
  - assert (LF : exists bf, lookup z (cl_blocks F) = Some bf) by (destruct IN as (bf & LF & _); eauto). destruct LF as (bf & LF). rewrite <- B1, (blk_inner z bf LF) in L. assert (blk' = final id call ff ret start z bf) by congruence. subst blk'.
    rewrite (fin_succ z bf LF) in I. apply inner_nil in IN. destruct (mem z exits) eqn:Mz.
    + destruct I as [<-|[]]. destruct IN as (l & -> & RL). rewrite <- B1, blk_second in L'. assert (blz = rename_block ρ (after_call id b pos ff phis)) by congruence. subst blz. rewrite phis_second in J. cbn [fst] in J.
      destruct (phi_facts p J) as (LT & _ & n & y & _ & _ & FA). change (index_of z (if Nat.ltb 1 (length exits) then exits else []) = Some k0) in IX. apply Nat.ltb_lt in LT as LT2. rewrite LT2 in IX. apply index_nth in IX.
      assert (Q : exists t, nth_error (ret z) n = Some t /\ v = rename_var σ t).
      { clear -FA IX NK. revert k0 IX NK. induction FA as [|e w es ws (t & T & ->) FA IH]; intros [|m] A B; cbn in A, B; try discriminate; [injection A as ->; injection B as <-; eauto|eauto]. }
      destruct Q as (t & NT & ->). exists t. split; [reflexivity|]. split; [constructor; rewrite RL; eapply nth_error_In; eauto|]. apply (return_read z); [now apply mem_In|eapply nth_error_In; eauto].
    + subst rest. destruct (succ_key F z bf b' CFF LF I) as (bz & LZ). destruct (goes_in b' bz LZ) as (r2 & P2 & _). rewrite <- B1, (blk_inner b' bz LZ) in L'. assert (blz = final id call ff ret start b' bz) by congruence. subst blz.
      rewrite P2 in J. cbn [fst] in J. apply in_map_iff in J as (p0 & <- & J). rewrite fin_entries in IX. assert (Ip : In p0 (cb_instrs bz)) by (rewrite (phis_of_split (cb_instrs bz)); apply in_app_iff; now left).
      rewrite (inner_ins b' bz p0 LZ Ip) in NK. unfold rename_var_list in NK. rewrite nth_error_map in NK. destruct (nth_error (li_ins p0) k0) as [t|] eqn:NW; [|discriminate]. cbn [option_map] in NK. exists t. split; [congruence|]. split; [eapply rh_phi; eauto|].
      exists b', bz. rewrite block_f. split; [exact LZ|]. left. exists p0. split; [exact Ip|eapply nth_error_In; eauto].
Qed.

(** ** Every variable read still has a value *)
Lemma out_not_arg y : In y outs -> ~ In y (arguments ob c).
Proof.
  intros I A. pose proof (ssa_once _ SS c g KG) as N. apply NoDup_parts in N as (_ & N & _). apply (N y A). eapply result_In; [exact LB| |exact I]. rewrite b_split. apply in_app_iff. right. now left.
Qed.
Lemma one v (P : string -> Prop) : P v -> forall w, In w [v] -> P w. Proof. intros H w [<-|[]]. exact H. Qed.
Lemma args_f : arguments ob (Some f) = fn_args k. Proof. cbn. now rewrite (oc_function _ _ _ _ _ _ _ OC). Qed.
Lemma keep_strict c0 g0 z rest' v : JumpSpec.component ob' c0 g0 -> read_here g0 z rest' v -> prefix "0x" v = false -> ~ In v (arguments ob' c0) -> ~ reached_without g0 [v] z rest'.
Proof.
  intros K0. apply KO in K0 as [(-> & ->)|(N1 & N2 & K0)]; [|rewrite args' by exact N2; apply (ssa_strict _ SS); exact K0]. rewrite args' by apply CF. intros RH PV NA R.
  assert (ACT : In v (li_ins call) -> ~ reached_without g [v] id (call :: post)) by (intros I; apply (ssa_strict _ SS c g); auto; now constructor).
  destruct (seen_all _ _ _ R) as [(x & rest & PL & A & B)|(rest & IN & A & B)].
  - destruct (read_caller _ _ _ _ _ PL RH) as (y & E & RY & Ry). destruct (in_dec string_dec y outs) as [I|I].
    + assert (SY : ~ reached_without g [y] x rest) by (apply (ssa_strict _ SS c g); auto; [now apply outs_def, (ssa_names _ SS) in I|now apply out_not_arg]).
      destruct (returned_out y I) as [(EX & _)|[(L & EY)|(e & t & EX & T & EY)]]; [exact (unread y I EX Ry)| |].
      * assert (E2 : v = y) by congruence. clear E. subst v. apply SY, A. apply one. split; [now apply outs_def|auto].
      * assert (Rt : reads_at ob (Some f) t) by (apply (return_read e); [rewrite EX; now left|exact T]). assert (EV : v = rename_var σ t) by congruence.
        destruct (name_f t Rt) as [P|[(NF & ET & D)|(Ia & _ & D & NO)]]; [congruence| |].
        -- assert (E2 : v = t) by congruence. clear E EV. subst v. destruct B as [B|(e0 & l & Ie & RL & B)]; [apply one; exact D|apply SY; eapply reached_weaken; [|exact B]; intros w [<-|[]]; exact I|].
           assert (e0 = e) by (rewrite EX in Ie; destruct Ie as [<-|[]]; reflexivity). subst e0. refine (ssa_strict _ SS (Some f) F e [l] t KF _ PV _ B); [constructor; now rewrite RL|now rewrite args_f].
        -- rewrite <- EV in *. destruct (before_def ob c g KG SS [v] y id b pre call post LB b_split I) with (b := x) (rest := rest) as [Q|Q].
           ++ apply post_no_phi. now left.
           ++ apply A. apply one. split; [exact D|tauto].
           ++ apply SY. eapply reached_weaken; [|exact Q]. intros w [<-|[]]. now left.
           ++ apply (ACT Ia). eapply reached_weaken; [|exact Q]. intros w [<-|[]]. right. now left.
    + rewrite ρ_other in E by exact I. subst v. refine (ssa_strict _ SS c g x rest y KG RY PV NA _). apply A. apply one. split; [|tauto]. destruct (read_def _ _ Ry) as [Q|(_ & D)]; [congruence|exact D].
  - destruct (read_inner _ _ _ _ IN RH) as (t & E & RT & Rt). destruct (name_f t Rt) as [P|[(NF & ET & D)|(Ia & _ & D & NO)]]; [congruence| |].
    + assert (E2 : v = t) by congruence. clear E. subst v. refine (ssa_strict _ SS (Some f) F z rest t KF RT PV _ _); [now rewrite args_f|]. apply B. apply one. exact D.
    + rewrite <- E in *. apply (ACT Ia). apply A. apply one. split; [exact D|tauto].
Qed.
Lemma keep_ssa : ssa ob'.
Proof. constructor; [exact keep_scoped|exact keep_once|exact keep_apart|exact keep_names|exact keep_strict]. Qed.

(** ** Blocks stay reached *)
Lemma reached_on g0 x l r : reached_without g0 [] x (l ++ r) -> reached_without g0 [] x r.
Proof. induction l as [|i l IH]; intros R; [exact R|]. apply IH. eapply rw_instr; [exact R|intros v []]. Qed.
Lemma lift_inner : reached_without g' [] (first_id id) [] -> forall z rest, reached_without F [] z rest -> forall rest', inner z rest rest' -> reached_without g' [] z rest'.
Proof.
  intros R1. induction 1 as [s bs rest S L P|z i rest R0 IH _|z bf z' bz ps rest _ IH L I L' P _]; intros rest' IN.
  - assert (s = start) by congruence. subst s. destruct (goes_in start bs L) as (r2 & P2 & IN2). rewrite P in P2, IN2. cbn [fst snd map] in P2, IN2.
    assert (rest' = r2) by (destruct IN as (bf & Lf & _ & A), IN2 as (bf2 & _ & _ & B); destruct (mem start exits); [|congruence]; destruct A as (r & l & E & _ & _ & ->), B as (r0 & l0 & E0 & _ & _ & ->); rewrite E in E0; apply app_inj_tail in E0 as (-> & _); reflexivity). subst r2.
    eapply rw_edge with (b := first_id id) (ps := []); [exact R1|rewrite <- B1; apply blk_first|now left|rewrite <- B1; apply (blk_inner start bs L)|exact P2|intros v []].
  - destruct IN as (bf & L & S & A). destruct (mem z exits) eqn:Mz.
    + destruct A as (r & l & -> & O & RL & ->). eapply (rw_instr g' [] z (τ i)); [|intros v []]. apply IH. exists bf. split; [exact L|]. destruct (reached_point F [] z (i :: r ++ [l])) as (blk & Lb & SU); [exact R0|]. rewrite L in Lb. injection Lb as <-.
      split; [destruct SU as (p & SU); rewrite (phis_of_split (cb_instrs bf)), SU; exists (fst (phis_of (cb_instrs bf)) ++ p); now rewrite app_assoc|]. rewrite Mz. exists (i :: r), l. auto.
    + subst rest'. eapply (rw_instr g' [] z (τ i)); [|intros v []]. apply IH. exists bf. split; [exact L|]. destruct (reached_point F [] z (i :: rest)) as (blk & Lb & SU); [exact R0|]. rewrite L in Lb. injection Lb as <-.
      split; [destruct SU as (p & SU); rewrite (phis_of_split (cb_instrs bf)), SU; exists (fst (phis_of (cb_instrs bf)) ++ p); now rewrite app_assoc|]. now rewrite Mz.
  - assert (Mz : mem z exits = false).
    { destruct (mem z exits) eqn:Mz; [|reflexivity]. exfalso. destruct (exit_instrs z bf L Mz) as (p & l & E & O & _ & SU & _). rewrite SU in I. destruct I. }
    destruct (goes_in z' bz L') as (r2 & P2 & IN2). rewrite P in P2, IN2. cbn [fst snd] in P2, IN2.
    assert (rest' = r2) by (destruct IN as (bf1 & Lf & _ & A), IN2 as (bf2 & _ & _ & B); destruct (mem z' exits); [|congruence]; destruct A as (r & l & E & _ & _ & ->), B as (r0 & l0 & E0 & _ & _ & ->); rewrite E in E0; apply app_inj_tail in E0 as (-> & _); reflexivity). subst r2.
    eapply rw_edge; [apply IH; exists bf; split; [exact L|]; split; [exists (cb_instrs bf); now rewrite app_nil_r|now rewrite Mz]|rewrite <- B1; apply (blk_inner z bf L)|rewrite (fin_succ z bf L), Mz; exact I|rewrite <- B1; apply (blk_inner z' bz L')|exact P2|intros v []].
Qed.
Lemma exits_reached e : In e exits -> exists l, reached_without F [] e [l] /\ inner e [l] [].
Proof.
  intros I. apply mem_In in I as Mx. destruct (in_returns _ _ _ _ _ _ _ INL e I) as (be & p & L & (l & E & O & R) & _). cbn [f_blocks] in L. exists l.
  assert (Q : reached_without F [] e (snd (phis_of (cb_instrs be)))) by (apply (ca_reached _ CA (Some f) F); [apply KF|exact L|left; rewrite E; now destruct p]).
  rewrite E, phis_of_app in Q by (intros i [<-|[]]; rewrite O; discriminate). cbn [snd] in Q. split; [now apply reached_on in Q|]. exists be. split; [exact L|]. split; [exists p; exact E|]. rewrite Mx. exists [], l. auto.
Qed.
Lemma lift_call : exits <> [] -> reached_without g' [] (first_id id) [] -> reached_without g' [] (second_id id) (map (rename_instr ρ) post).
Proof.
  intros NE R. assert (E : exists e, In e exits) by (revert NE; generalize exits as l; intros [|e l] NE; [contradiction|exists e; now left]). destruct E as (e & I). destruct (exits_reached e I) as (l & R2 & IN). pose proof (lift_inner R e [l] R2 [] IN) as R3.
  apply mem_In in I as Mx. destruct IN as (be & L & _). eapply rw_edge; [exact R3|rewrite <- B1; apply (blk_inner e be L)|rewrite (fin_succ e be L), Mx; now left|rewrite <- B1; apply blk_second|apply phis_second|intros v []].
Qed.
Lemma place_length x rest z rest' : place x rest z rest' -> z = second_id id -> x = id /\ length rest <= length post.
Proof.
  intros P Q. inversion P as [x0 blk r N L S Q1 Q2 Q3 Q4|r S Q1 Q2 Q3 Q4|r (p & S) Q1 Q2 Q3 Q4]; subst.
  - exfalso. now apply in_g in L.
  - exfalso. match goal with H : first_id id = second_id id |- _ => exact (halves_ne id H) end.
  - split; [reflexivity|]. rewrite S, app_length. lia.
Qed.
Lemma place_once2 x rest z1 r1 z2 r2 : place x rest z1 r1 -> place x rest z2 r2 -> z1 = z2 /\ r1 = r2.
Proof.
  intros P1 P2. inversion P1 as [x0 blk r N L S Q1 Q2 Q3 Q4|r S Q1 Q2 Q3 Q4|r (p & S) Q1 Q2 Q3 Q4]; inversion P2 as [x0' blk' r' N' L' S' Q1' Q2' Q3' Q4'|r' S' Q1' Q2' Q3' Q4'|r' (p' & S') Q1' Q2' Q3' Q4']; subst; try congruence; auto.
  - apply app_inv_tail in Q2'. subst. auto.
  - exfalso. apply (f_equal (@length _)) in S'. rewrite !app_length in S'. cbn [length] in S'. lia.
  - exfalso. apply (f_equal (@length _)) in S. rewrite !app_length in S. cbn [length] in S. lia.
Qed.
Lemma lift_caller x rest : reached_without g [] x rest -> forall z rest', place x rest z rest' -> (z = second_id id -> exits <> []) -> reached_without g' [] z rest'.
Proof.
  induction 1 as [s bs rest S L P|x i rest R IH _|x blk y by_ ps rest R IH L I L' P _]; intros z rest' PL NE.
  - destruct (goes_to s bs L) as (blk' & r2 & L2 & P2 & PL2 & _). rewrite P in P2, PL2. cbn [fst snd map] in P2, PL2. destruct (place_once2 _ _ _ _ _ _ PL PL2) as (-> & ->). eapply rw_start; [|exact L2|exact P2].
    rewrite SG', S. cbn. unfold renamed. rewrite String.eqb_sym. now destruct (String.eqb s id).
  - destruct (reached_point _ _ _ _ R) as (blk & L & SU). assert (SI : suffix (i :: rest) (cb_instrs blk)) by (destruct SU as (p & SU); exists (fst (phis_of (cb_instrs blk)) ++ p); rewrite <- app_assoc, <- SU; apply phis_of_split).
    inversion PL as [x0 blk0 r N L0 S Q1 Q2 Q3 Q4|r S Q1 Q2 Q3 Q4|r S Q1 Q2 Q3 Q4]; subst.
    + apply (rw_instr g' [] z (rename_instr ρ i)); [|intros v []]. apply (IH z (rename_instr ρ i :: map (rename_instr ρ) rest)); [|exact NE]. rewrite L in L0. injection L0 as <-. exact (pl_other z blk (i :: rest) N L SI).
    + (* before the call *) rewrite LB in L. injection L as <-. assert (S2 : suffix (i :: r) pre).
      { destruct SI as (p & SI). rewrite b_split in SI at 1. change (i :: r ++ call :: post) with ((i :: r) ++ call :: post) in SI. rewrite app_assoc in SI. apply app_inv_tail in SI. now exists p. }
      apply (rw_instr g' [] (first_id id) (rename_instr ρ i)); [|intros v []]. apply (IH (first_id id) (map (rename_instr ρ) (i :: r))); [exact (pl_before (i :: r) S2)|intros Q; destruct (halves_ne id Q)].
    + rewrite LB in L. injection L as <-. destruct SI as (p & SI). destruct S as (p0 & S).
      (* right after the call, or later *)
      destruct p0 as [|j p0].
      * cbn in S. subst rest. assert (Ei : p ++ [i] = pre ++ [call]) by (apply (app_inv_tail post); rewrite <- !app_assoc; cbn; rewrite <- SI; apply b_split). apply app_inj_tail in Ei as (_ & ->).
        apply lift_call; [now apply NE|]. apply (IH (first_id id) []); [exact (pl_before [] ltac:(exists pre; now rewrite app_nil_r))|intros Q; destruct (halves_ne id Q)].
      * assert (S2 : suffix (i :: rest) post).
        { destruct (exists_last (l := j :: p0)) as (p1 & a & E); [discriminate|]. exists p1. rewrite S, E, <- app_assoc. cbn. f_equal.
          assert (Q : p ++ [i] = (pre ++ call :: p1) ++ [a]) by (apply (app_inv_tail rest); rewrite <- !app_assoc; cbn; rewrite <- SI; rewrite b_split at 1; rewrite S at 1; rewrite E; now rewrite <- app_assoc). apply app_inj_tail in Q as (_ & ->). reflexivity. }
        apply (rw_instr g' [] (second_id id) (rename_instr ρ i)); [|intros v []]. apply (IH (second_id id) (map (rename_instr ρ) (i :: rest))); [exact (pl_after (i :: rest) S2)|exact NE].
  - destruct (goes_to y by_ L') as (bl2 & r2 & L2 & P2 & PL2 & _). rewrite P in P2, PL2. cbn [fst snd] in P2, PL2. destruct (place_once2 _ _ _ _ _ _ PL PL2) as (-> & ->).
    assert (PX : exists zx, place x [] zx []).
    { destruct (string_dec x id) as [->|N]; [exists (second_id id); apply (pl_after []); exists post; now rewrite app_nil_r|exists x; apply (pl_other x blk []); auto; exists (cb_instrs blk); now rewrite app_nil_r]. }
    destruct PX as (zx & PX). assert (LZ : exists bz, lookup zx (cl_blocks g') = Some bz).
    { inversion PX as [x0 blk0 r N L0 S Q1 Q2 Q3 Q4|r S Q1 Q2 Q3 Q4|r S Q1 Q2 Q3 Q4]; subst; [exists (rename_block ρ (edit id blk0)); rewrite <- B1; now apply blk_other|destruct r; discriminate|eexists; rewrite <- B1; apply blk_second]. }
    destruct LZ as (bz & LZ). destruct (leaves_from x zx bz PX LZ) as (blk0 & L0 & EZ & SU & _). rewrite L in L0. injection L0 as <-.
    eapply rw_edge; [apply (IH zx [] PX)|exact LZ|rewrite SU; now apply in_map|exact L2|exact P2|intros v []].
    intros EQ EX. assert (x = id) by (apply place_length in PX; tauto). subst x. rewrite LB in L. injection L as <-.
    destruct (ca_stuck _ CA c id b pre call post k) as (_ & SS0 & _); [rewrite block_c; exact LB|apply b_split|rewrite call_op; apply (oc_function _ _ _ _ _ _ _ OC)|exact EX|]. rewrite SS0 in I. destruct I.
Qed.
Lemma keep_reached c0 g0 z blk' : JumpSpec.component ob' c0 g0 -> lookup z (cl_blocks g0) = Some blk' -> cb_instrs blk' <> [] \/ successors blk' <> [] -> reached_without g0 [] z (snd (phis_of (cb_instrs blk'))).
Proof.
  intros K0. apply KO in K0 as [(-> & ->)|(N1 & N2 & K0)]; [|now apply (ca_reached _ CA c0)]. intros L NN.
  assert (RB : reached_without g [] id (snd (phis_of pre) ++ call :: post)).
  { pose proof (ca_reached _ CA c g id b KG LB) as R. rewrite phis_b in R. apply R. left. rewrite b_split. now destruct pre. }
  destruct (block_cases z blk' L) as [(-> & ->)|[(-> & ->)|[(bf & LF & ->)|(blk & N & LX & ->)]]].
  - rewrite phis_second. cbn [snd]. assert (NE : exits <> []).
    { intros E. destruct (ca_stuck _ CA c id b pre call post k) as (PE & SE & _); [rewrite block_c; exact LB|apply b_split|rewrite call_op; apply (oc_function _ _ _ _ _ _ _ OC)|exact E|].
      rewrite second_instrs in NN. change (successors (rename_block ρ (after_call id b pos ff phis))) with (successors b) in NN. rewrite SE, PE in NN. pose proof PHIS as PH. rewrite E in PH. cbn in PH. rewrite PH in NN. cbn in NN. tauto. }
    apply (lift_caller id post); [|apply (pl_after post (suffix_refl _))|auto]. apply reached_on in RB. eapply rw_instr; [exact RB|intros v []].
  - change (cb_instrs (rename_block ρ (before_call id b pos start))) with (map (rename_instr ρ) pre). rewrite phis_rename. cbn [snd]. eapply lift_caller; [exact RB|apply pl_before, rest_suffix|intros Q; destruct (halves_ne id Q)].
  - destruct (goes_in z bf LF) as (r2 & P2 & IN2). rewrite P2. cbn [snd]. eapply lift_inner; [|apply (ca_reached _ CA (Some f) F z bf KF LF)|exact IN2].
    + apply (lift_caller id (call :: post)); [now apply reached_on in RB|exact (pl_before [] ltac:(exists pre; now rewrite app_nil_r))|intros Q; destruct (halves_ne id Q)].
    + rewrite (fin_succ z bf LF), fin_instrs in NN. destruct (mem z exits) eqn:Mz; [left; destruct (exit_instrs z bf LF Mz) as (p & l & E & _); rewrite E; now destruct p|]. destruct NN as [NN|NN]; [left|now right]. intros Q. rewrite Q in NN. now apply NN.
  - change (cb_instrs (rename_block ρ (edit id blk))) with (map (rename_instr ρ) (cb_instrs blk)) in *. rewrite phis_rename. cbn [snd]. eapply lift_caller; [apply (ca_reached _ CA c g z blk KG LX)|eapply pl_other; eauto; apply rest_suffix|intros ->; now apply in_g in LX].
    destruct NN as [NN|NN]; [left; intros Q; rewrite Q in NN; now apply NN|right; intros Q; apply NN].
    change (successors (rename_block ρ (edit id blk))) with (successors (relink id (first_id id) blk)). rewrite successors_relink, Q. reflexivity.
Qed.

(** ** The other conditions *)
Hypothesis NR : NoDup (cl_return g').
Lemma split_map {A B} (h : A -> B) l : forall p' i' q', map h l = p' ++ i' :: q' -> exists p i q, l = p ++ i :: q /\ p' = map h p /\ i' = h i /\ q' = map h q.
Proof.
  induction l as [|a l IH]; intros p' i' q' E; [destruct p'; discriminate|]. destruct p' as [|b0 p']; cbn in E.
  - injection E as <- <-. exists [], a, l. auto.
  - injection E as <- E. destruct (IH _ _ _ E) as (p & i & q & -> & -> & -> & ->). exists (a :: p), i, q. auto.
Qed.
Lemma split_right {A} (l1 : list A) : forall l2 p i q, l1 ++ l2 = p ++ i :: q -> ~ In i l1 -> exists p2, l2 = p2 ++ i :: q.
Proof.
  induction l1 as [|a l1 IH]; intros l2 p i q E N; [now exists p|]. destruct p as [|b0 p]; cbn in E; [injection E as -> _; elim N; now left|]. injection E as _ E. apply (IH l2 p i q E). intros I. apply N. now right.
Qed.
Lemma at_inv z blk' p' i' q' : lookup z (cl_blocks g') = Some blk' -> cb_instrs blk' = p' ++ i' :: q' -> li_op i' <> "PhiFunction" ->
  (exists p i q, z = second_id id /\ blk' = rename_block ρ (after_call id b pos ff phis) /\ post = p ++ i :: q /\ i' = rename_instr ρ i /\ q' = map (rename_instr ρ) q)
  \/ (exists p i q, z = first_id id /\ blk' = rename_block ρ (before_call id b pos start) /\ pre = p ++ i :: q /\ i' = rename_instr ρ i /\ q' = map (rename_instr ρ) q)
  \/ (exists bf p i q, lookup z (cl_blocks F) = Some bf /\ blk' = final id call ff ret start z bf /\ cb_instrs bf = p ++ i :: q /\ i' = τ i /\ li_op i <> "functionReturn"
        /\ (mem z exits = false /\ q' = map τ q \/ mem z exits = true /\ q <> []))
  \/ (exists blk p i q, z <> id /\ lookup z (cl_blocks g) = Some blk /\ blk' = rename_block ρ (edit id blk) /\ cb_instrs blk = p ++ i :: q /\ i' = rename_instr ρ i /\ q' = map (rename_instr ρ) q).
Proof.
  intros L E NP. destruct (block_cases z blk' L) as [(-> & ->)|[(-> & ->)|[(bf & LF & ->)|(blk & N & LX & ->)]]].
  - left. rewrite second_instrs in E. apply split_right in E as (p2 & E); [|intros I; apply phi_facts in I; tauto]. apply split_map in E as (p & i & q & E & _ & -> & ->). exists p, i, q. auto.
  - right. left. change (map (rename_instr ρ) pre = p' ++ i' :: q') in E. apply split_map in E as (p & i & q & E & _ & -> & ->). exists p, i, q. auto.
  - right. right. left. destruct (fin_in z bf i' LF) as (i0 & _ & E0 & O0); [rewrite E; apply in_app_iff; right; now left|]. rewrite fin_instrs in E. destruct (mem z exits) eqn:Mz.
    + destruct (exit_instrs z bf LF Mz) as (p & l & EB & O & _). rewrite EB, map_app in E. cbn [map] in E. rewrite removelast_last in E. apply split_map in E as (p1 & i & q & E & _ & -> & ->).
      exists bf, p1, i, (q ++ [l]). split; [exact LF|]. split; [reflexivity|]. split; [rewrite EB, E, <- app_assoc; reflexivity|]. split; [reflexivity|]. split; [|right; split; [reflexivity|now destruct q]].
      assert (H : li_op (τ i) = li_op (τ i0)) by now rewrite <- E0. change (li_op i = li_op i0) in H. congruence.
    + apply split_map in E as (p1 & i & q & E & _ & -> & ->). exists bf, p1, i, q. split; [exact LF|]. split; [reflexivity|]. split; [exact E|]. split; [reflexivity|]. split; [|left; auto].
      assert (H : li_op (τ i) = li_op (τ i0)) by now rewrite <- E0. change (li_op i = li_op i0) in H. congruence.
  - right. right. right. change (map (rename_instr ρ) (cb_instrs blk) = p' ++ i' :: q') in E. apply split_map in E as (p & i & q & E & _ & -> & ->). exists blk, p, i, q. auto 7.
Qed.
Lemma split_post p i q : post = p ++ i :: q -> cb_instrs b = (pre ++ call :: p) ++ i :: q. Proof. intros E. rewrite b_split at 1. rewrite E at 1. now rewrite <- app_assoc. Qed.
Lemma split_pre p i q : pre = p ++ i :: q -> cb_instrs b = p ++ i :: (q ++ call :: post). Proof. intros E. rewrite b_split at 1. rewrite E at 1. now rewrite <- app_assoc. Qed.
Lemma functions' h k' : lookup h (ob_functions ob') = Some k' -> h <> f /\ exists k0, lookup h (ob_functions ob) = Some k0 /\ fn_args k' = fn_args k0
  /\ (c = Some h -> fn_blocks k' = g' /\ fn_blocks k0 = g) /\ (c <> Some h -> k' = k0).
Proof.
  intros L. assert (N : h <> f) by (intros ->; rewrite gone in L; discriminate). split; [exact N|]. rewrite (FN h N) in L. destruct (lookup h (ob_functions ob)) as [k0|] eqn:L0; [|discriminate]. cbn [option_map] in L. exists k0. split; [reflexivity|].
  assert (DC : opt_eqb c (Some h) = true \/ opt_eqb c (Some h) = false) by (destruct (opt_eqb c (Some h)); auto). destruct DC as [DC|DC]; rewrite DC in L.
  - apply opt_eqb_eq in DC. injection L as <-. split; [reflexivity|]. split; [|contradiction]. intros _. split; [reflexivity|]. pose proof KG as Q. rewrite DC in Q. destruct Q as (k1 & Q1 & Q2). congruence.
  - injection L as <-. split; [reflexivity|]. split; [|reflexivity]. intros Q. rewrite Q, opt_eqb_refl in DC. discriminate.
Qed.
Lemma returns' : cl_return g' = [] <-> cl_return g = [].
Proof.
  assert (Z : forall l : list string, l = [] <-> forall x, ~ In x l) by (intros [|a l]; split; [intros _ x []|reflexivity|discriminate|intros H; elim (H a); now left]). rewrite !Z. split; intros H x I.
  - apply (c_return _ CG) in I as (blk & L & [T|[]]). destruct (string_dec x id) as [->|N].
    + apply (H (second_id id)). apply (c_return _ CG'). exists (rename_block ρ (after_call id b pos ff phis)). rewrite <- B1. split; [apply blk_second|]. left. rewrite LB in L. injection L as <-. exact T.
    + apply (H x). apply (c_return _ CG'). exists (rename_block ρ (edit id blk)). rewrite <- B1. split; [now apply blk_other|]. left. exact T.
  - apply (c_return _ CG') in I as (blk' & L & [T|[]]). destruct (block_cases x blk' L) as [(-> & ->)|[(-> & ->)|[(bf & LF & ->)|(blk & N & LX & ->)]]].
    + apply (H id). apply (c_return _ CG). exists b. split; [exact LB|]. left. exact T.
    + discriminate.
    + destruct (fin_rest x bf) as (TY & _). rewrite TY in T. destruct (String.eqb_spec (cb_type bf) "FunctionReturn"); congruence.
    + apply (H x). apply (c_return _ CG). exists blk. split; [exact LX|]. left. exact T.
Qed.
Lemma stuck_read y : ~ In y outs -> (defines_at ob c y -> ~ reads_at ob c y) -> (defines_at ob (Some f) y -> ~ In y (fn_args k) -> ~ reads_at ob (Some f) y) -> defines_at ob c y \/ defines_at ob (Some f) y -> ~ reads_at ob' c y.
Proof.
  intros NO UC UF D R. assert (ST : forall t, reads_at ob (Some f) t -> y <> rename_var σ t).
  { intros t Rt E. destruct (name_f t Rt) as [P|[(NF & ET & Dt)|(Ia & _ & Dt & _)]].
    - rewrite <- E in P. destruct D as [D|D]; apply (ssa_names _ SS) in D; congruence.
    - rewrite ET in E. subst y. exact (UF Dt NF Rt).
    - rewrite <- E in *. apply (UC Dt). now apply ins_read. }
  apply read' in R as [(w & Rw & E)|(t & Rt & E)]; [|exact (ST t Rt E)]. destruct (in_dec string_dec w outs) as [I|I].
  - destruct (returned_out w I) as [(EX & _)|[(_ & EW)|(e & t & EX & T & EW)]]; [exact (unread w I EX Rw)|congruence|]. apply (ST t); [apply (return_read e); [rewrite EX; now left|exact T]|congruence].
  - rewrite ρ_other in E by exact I. subst w. destruct (read_def _ _ Rw) as [P|(_ & D2)]; [destruct D as [D|D]; apply (ssa_names _ SS) in D; congruence|]. exact (UC D2 Rw).
Qed.
Lemma block_cases' c0 z blk' : block_at ob' c0 z = Some blk' -> (c0 = c /\ lookup z (cl_blocks g') = Some blk') \/ (c0 <> c /\ c0 <> Some f /\ block_at ob c0 z = Some blk').
Proof.
  intros B. destruct (component_cases c0) as [->|[->|(N1 & N2)]]; [left; rewrite <- B1; auto|rewrite no_block in B; discriminate|right; rewrite <- B2; auto].
Qed.
Lemma ren_length r (l : list string) : length (rename_var_list r l) = length l. Proof. apply map_length. Qed.
Lemma defined_before c0 x : defines_at ob' c0 x -> exists c1, defines_at ob c1 x.
Proof. intros D. destruct (component_cases c0) as [->|[->|(N1 & N2)]]; [apply defined' in D as [(D & _)|(D & _)]; eauto|now apply no_def in D|apply other_def in D; eauto]. Qed.
Lemma keep_calls : calls_ok ob'.
Proof.
  constructor.
  - intros c0 z blk' i' k' B I L. destruct (functions' _ _ L) as (NF & k0 & L0 & EA & KC & KN).
    assert (O : exists c1 x blk i, block_at ob c1 x = Some blk /\ In i (cb_instrs blk) /\ li_op i' = li_op i /\ length (li_ins i') = length (li_ins i) /\ length (li_outs i') = length (li_outs i)).
    { destruct (block_cases' c0 z blk' B) as [(-> & Lz)|(N1 & N2 & Bz)]; [|exists c0, z, blk', i'; auto 6]. destruct (comes_from z blk' i' Lz I) as [p _ P|y blk i Ly Iy _|bf i Ly Iy _].
      - exfalso. apply phi_facts in P as (_ & O & _). rewrite O in L0. apply lookup_In_key, (oo_reserved _ OO) in L0. cbn in L0. tauto.
      - exists c, y, blk, i. rewrite block_c. cbn [rename_instr li_op li_ins li_outs]. rewrite !ren_length. auto 6.
      - exists (Some f), z, bf, i. rewrite block_f. cbn [rename_instr li_op li_ins li_outs]. rewrite !ren_length. auto 6. }
    destruct O as (c1 & x & blk & i & Bx & Ix & EO & E1 & E2). rewrite EO in *. destruct (ca_arity _ CA c1 x blk i k0 Bx Ix L0) as (A1 & A2). split; [congruence|]. intros z2 blk2 r B3 Ir Or.
    destruct (block_cases' _ _ _ B3) as [(EC & Lz)|(N1 & N2 & Bz)]; [|rewrite E2; eapply A2; eauto]. destruct (comes_from z2 blk2 r Lz Ir) as [p _ P|y blk0 j Ly Iy _|bf j Ly Iy NJ].
    + exfalso. apply phi_facts in P as (_ & O & _). congruence.
    + rewrite E2. cbn [rename_instr li_op li_ins li_outs]. rewrite !ren_length. apply (A2 y blk0); [rewrite EC, block_c; exact Ly|exact Iy|exact Or].
    + contradiction.
  - intros c0 g0 K0. apply KO in K0 as [(-> & ->)|(N1 & N2 & K0)]; [|now apply (ca_exits _ CA c0)]. split; [exact NR|]. intros x blk' I L. apply (c_return _ CG') in I as (blk2 & L2 & [T|[]]). rewrite L in L2. injection L2 as <-.
    destruct (ca_exits _ CA c g KG) as (_ & EX). destruct (block_cases x blk' L) as [(-> & ->)|[(-> & ->)|[(bf & LF & ->)|(blk & N & LX & ->)]]].
    + change (option_map (rename_var ρ) (cb_cond b) = None). rewrite (EX id b); [reflexivity| |exact LB]. apply (c_return _ CG). exists b. split; [exact LB|left; exact T].
    + reflexivity.
    + destruct (fin_rest x bf) as (TY & _). rewrite TY in T. destruct (String.eqb_spec (cb_type bf) "FunctionReturn"); congruence.
    + change (option_map (rename_var ρ) (cb_cond blk) = None). rewrite (EX x blk); [reflexivity| |exact LX]. apply (c_return _ CG). exists blk. split; [exact LX|left; exact T].
  - intros c0 z blk' p' i' q' k' B E L ER. destruct (functions' _ _ L) as (NF & k0 & L0 & EA & KC & KN).
    assert (ER0 : cl_return (fn_blocks k0) = []).
    { destruct (component_cases (Some (li_op i'))) as [Q|[Q|(Q & _)]]; [destruct (KC (eq_sym Q)) as (Q1 & Q2); rewrite Q2; apply returns'; congruence|congruence|]. rewrite <- KN; [exact ER|congruence]. }
    assert (NPH : li_op i' <> "PhiFunction") by (intros O; rewrite O in L0; apply lookup_In_key, (oo_reserved _ OO) in L0; cbn in L0; tauto).
    destruct (block_cases' c0 z blk' B) as [(-> & Lz)|(N1 & N2 & Bz)].
    + destruct (at_inv z blk' p' i' q' Lz E NPH) as [(p & i & q & -> & -> & EB & -> & ->)|[(p & i & q & -> & -> & EB & -> & ->)|[(bf & p & i & q & LF & -> & EB & -> & NRt & QQ)|(blk & p & i & q & N & LX & -> & EB & -> & ->)]]].
      * apply split_post in EB. destruct (ca_stuck _ CA c id b _ i q k0 ltac:(rewrite block_c; exact LB) EB L0 ER0) as (-> & SE & U). split; [reflexivity|]. split; [exact SE|]. intros y I.
        assert (Ii : In i (cb_instrs b)) by (rewrite EB; apply in_app_iff; right; now left). rewrite (kept_outs id b i LB Ii NF) in I. destruct (c_result id b i y LB Ii NF I) as (D & NO). apply stuck_read; auto. intros D2. destruct (apart _ D D2).
      * apply split_pre in EB. destruct (ca_stuck _ CA c id b _ i _ k0 ltac:(rewrite block_c; exact LB) EB L0 ER0) as (Q & _). destruct q; discriminate.
      * destruct (ca_stuck _ CA (Some f) z bf _ i q k0 ltac:(rewrite block_f; exact LF) EB L0 ER0) as (-> & SE & U). destruct QQ as [(Mz & ->)|(_ & Q)]; [|contradiction]. split; [reflexivity|]. split; [rewrite (fin_succ z bf LF), Mz; exact SE|]. intros y I.
        assert (Ii : In i (cb_instrs bf)) by (rewrite EB; apply in_app_iff; right; now left). rewrite (inner_outs z bf i LF Ii) in I. destruct (f_result z bf i y LF Ii I) as (D & NA). apply stuck_read; auto; [intros O; apply outs_def in O; exact (apart _ O D)|]. intros D2. destruct (apart _ D2 D).
      * destruct (ca_stuck _ CA c z blk _ i q k0 ltac:(rewrite block_c; exact LX) EB L0 ER0) as (-> & SE & U). split; [reflexivity|]. split.
        -- change (successors (relink id (first_id id) blk) = []). rewrite successors_relink, SE. reflexivity.
        -- intros y I. assert (Ii : In i (cb_instrs blk)) by (rewrite EB; apply in_app_iff; right; now left). rewrite (kept_outs z blk i LX Ii NF) in I. destruct (c_result z blk i y LX Ii NF I) as (D & NO). apply stuck_read; auto. intros D2. destruct (apart _ D D2).
    + destruct (ca_stuck _ CA c0 z blk' p' i' q' k0 Bz E L0 ER0) as (A1 & A2 & A3). split; [exact A1|]. split; [exact A2|]. intros y I R. apply (A3 y I). now apply other_read.
  - exact keep_reached.
  - intros c0 x D. destruct (defined_before c0 x D) as (c1 & D0). destruct (ca_variables _ CA c1 x D0) as (A1 & A2). split; [exact A1|]. intros h I. apply A2. rewrite FNS in I. now apply filter_In in I.
Qed.

(** ** Well-formed objects *)
Lemma subst_eq old new : subst old new old = new. Proof. unfold subst. now rewrite String.eqb_refl. Qed.
Lemma NoDup_subst old new l : NoDup l -> ~ In new l -> NoDup (map (subst old new) l).
Proof.
  induction l as [|x l IH]; intros N NI; [constructor|]. inversion N as [|? ? N1 N2]; subst. cbn. constructor; [|apply IH; [exact N2|intros I; apply NI; now right]]. intros I. apply in_map_iff in I as (y & E & I).
  destruct (String.eqb_spec old x) as [<-|Nx].
  - rewrite subst_eq in E. destruct (String.eqb_spec old y) as [<-|Ny]; [contradiction|]. rewrite subst_ne in E by congruence. subst y. apply NI. now right.
  - rewrite (subst_ne _ _ x) in E by congruence. destruct (String.eqb_spec old y) as [<-|Ny]; [rewrite subst_eq in E; subst x; apply NI; now left|]. rewrite subst_ne in E by congruence. subst y. contradiction.
Qed.
Lemma own_name x blk : lookup x (cl_blocks g) = Some blk -> block_name ob c x. Proof. intros L. exists g. split; [exact KG|]. eapply lookup_In_key; eauto. Qed.
Lemma name_split l l' r : phis_first l -> (forall i, In i l -> li_op (r i) = li_op i) -> l' = map r l -> phis_first l'.
Proof.
  intros (ps & os & -> & P & O) H ->. exists (map r ps), (map r os). split; [apply map_app|]. split; intros i I; apply in_map_iff in I as (j & <- & I); rewrite H by (apply in_app_iff; auto); auto.
Qed.
Lemma phis_app_left l1 l2 : phis_first (l1 ++ l2) -> phis_first l1.
Proof.
  intros (ps & os & E & P & O). revert ps E P. induction l1 as [|a l1 IH]; intros ps E P; [exists [], []; split; [reflexivity|]; split; intros i []|]. destruct ps as [|p ps]; cbn in E.
  - exists [], (a :: l1). split; [reflexivity|]. split; [intros i []|]. intros i I. apply O. rewrite <- E. destruct I as [->|I]; [now left|right; apply in_app_iff; auto].
  - injection E as <- E. destruct (IH ps E (fun i I => P i (or_intror I))) as (ps' & os' & -> & P' & O'). exists (a :: ps'), os'. split; [reflexivity|]. split; [|exact O']. intros i [ <- |I]; [apply P; now left|auto].
Qed.
Lemma phis_app_right l1 i l2 : phis_first (l1 ++ i :: l2) -> li_op i <> "PhiFunction" -> forall j, In j l2 -> li_op j <> "PhiFunction".
Proof.
  intros (ps & os & E & P & O) N. revert ps E P. induction l1 as [|a l1 IH]; intros ps E P; (destruct ps as [|p ps]; cbn in E).
  - intros j I. apply O. rewrite <- E. now right.
  - injection E as <- E. elim N. apply P. now left.
  - intros j I. apply O. rewrite <- E. right. apply in_app_iff. right. now right.
  - injection E as <- E. exact (IH ps E (fun i I => P i (or_intror I))).
Qed.
Lemma call_not_phi : li_op call <> "PhiFunction".
Proof. rewrite call_op. intros Q. pose proof (oc_function _ _ _ _ _ _ _ OC) as LF. apply lookup_In_key, (oo_reserved _ OO) in LF. rewrite Q in LF. cbn in LF. tauto. Qed.
Lemma fin_split x bf : cb_split (final id call ff ret start x bf) = if mem x exits then None else option_map τ (cb_split bf).
Proof. unfold final, linked, no_return. cbn [f_blocks]. destruct (mem x exits), (String.eqb x start), (String.eqb (cb_type (rename_block σ bf)) "FunctionReturn"); cbn; try reflexivity; now destruct (cb_split bf). Qed.
Definition base (c0 : option string) (z : string) (d : option string) (x : string) : Prop :=
  block_name ob d x /\ JumpProofs.spread x z /\ (c0 = c /\ (d = c \/ d = Some f) \/ c0 = d /\ d <> c /\ d <> Some f) /\ (z = x /\ ~ (d = c /\ x = id) \/ d = c /\ x = id /\ (z = first_id id \/ z = second_id id)).
Lemma based c0 z : block_name ob' c0 z -> exists d x, base c0 z d x.
Proof.
  pose proof (oc_outside _ _ _ _ _ _ _ OC) as NF. intros (g0 & K0 & I). apply KO in K0 as [(-> & ->)|(N1 & N2 & K0)].
  - destruct (lookup z (cl_blocks g')) as [blk'|] eqn:L; [|exfalso; revert I; apply lookup_None; exact L]. destruct (block_cases z blk' L) as [(-> & _)|[(-> & _)|[(bf & LF & _)|(blk & N & LX & _)]]].
    + exists c, id. split; [eapply own_name; eauto|]. split; [apply JumpProofs.spread_second|]. split; [left; auto|]. right. auto.
    + exists c, id. split; [eapply own_name; eauto|]. split; [apply JumpProofs.spread_first|]. split; [left; auto|]. right. auto.
    + exists (Some f), z. split; [exists F; split; [exact KF|eapply lookup_In_key; eauto]|]. split; [apply JumpProofs.spread_refl|]. split; [left; auto|]. left. split; [reflexivity|]. intros (Q & _). congruence.
    + exists c, z. split; [eapply own_name; eauto|]. split; [apply JumpProofs.spread_refl|]. split; [left; auto|]. left. split; [reflexivity|]. tauto.
  - exists c0, z. split; [exists g0; auto|]. split; [apply JumpProofs.spread_refl|]. split; [right; auto|]. left. split; [reflexivity|]. tauto.
Qed.
Lemma hex_shape v : prefix "0x" v = true -> exists u, v = String "0" (String "x" u).
Proof.
  destruct v as [|c1 [|c2 v]]; cbn [prefix]; intros P; repeat match type of P with context [Ascii.ascii_dec ?a ?b] => destruct (Ascii.ascii_dec a b) end; try discriminate. subst. eauto.
Qed.
Lemma read_ins c0 z blk' i' v : block_at ob' c0 z = Some blk' -> In i' (cb_instrs blk') -> In v (li_ins i') -> numeral v = false /\ forall h, In h (map fst (ob_functions ob')) -> v <> ("out_" ++ h)%string.
Proof.
  intros B I J. destruct (prefix "0x" v) eqn:P.
  - destruct (hex_shape v P) as (u & ->). split; [reflexivity|]. intros h _ Q. discriminate.
  - apply (ca_variables _ keep_calls c0). apply keep_scoped; [|exact P]. exists z, blk'. split; [exact B|]. left. eauto.
Qed.
Lemma keep_object : object_ok ob'.
Proof.
  assert (BK : forall c0 g0 z blk', component ob' c0 g0 -> lookup z (cl_blocks g0) = Some blk' -> block_at ob' c0 z = Some blk').
  { intros c0 g0 z blk' K0 L. apply KO in K0 as [(-> & ->)|(N1 & N2 & K0)]; [now rewrite B1|]. rewrite B2 by assumption. clear -K0 L. unfold block_at, blocks_at. destruct c0 as [q|]; cbn in K0; [destruct K0 as (k0 & -> & <-); exact L|now rewrite K0]. }
  constructor.
  - rewrite FNS. apply NoDup_filter. exact (oo_functions _ OO).
  - intros h I. rewrite FNS in I. apply filter_In in I as (I & _). exact (oo_reserved _ OO h I).
  - assert (KM : component ob' None (ob_main ob')) by reflexivity. apply KO in KM as [(Q & ->)|(_ & _ & K0)]; [|rewrite <- K0; exact (oo_main _ OO)]. apply returns'. pose proof KG as K0. rewrite <- Q in K0. rewrite <- K0. exact (oo_main _ OO).
  - intros c0 g0 K0. apply KO in K0 as [(-> & ->)|(N1 & N2 & K0)]; [exact CG'|exact (oo_consistent _ OO _ _ K0)].
  - intros c0 g0 z blk' K0 L. apply KO in K0 as [(-> & ->)|(N1 & N2 & K0)]; [|exact (oo_links _ OO _ _ _ _ K0 L)]. destruct (block_cases z blk' L) as [(-> & ->)|[(-> & ->)|[(bf & LF & ->)|(blk & N & LX & ->)]]].
    + change (successors (rename_block ρ (after_call id b pos ff phis))) with (successors b). destruct (oo_links _ OO _ _ _ _ KG LB) as (_ & N2). split; [|exact N2]. intros I. destruct (succ_key g id b _ CG LB I) as (by_ & Ly). apply in_g in Ly. tauto.
    + change (successors (rename_block ρ (before_call id b pos start))) with [start]. split; [|constructor; [intros []|constructor]]. intros [Q|[]]. destruct (c_start _ CFF) as (s & S1 & S2). rewrite START in S1. injection S1 as <-. apply (in_apart _ _ _ _ _ _ _ INL) in S2. tauto.
    + rewrite (fin_succ z bf LF). destruct (mem z exits); [|exact (oo_links _ OO _ _ _ _ KF LF)]. split; [|constructor; [intros []|constructor]]. intros [Q|[]]. apply in_f in LF. intuition congruence.
    + change (successors (rename_block ρ (edit id blk))) with (successors (relink id (first_id id) blk)). rewrite successors_relink. destruct (oo_links _ OO _ _ _ _ KG LX) as (N1 & N2). split.
      * intros I. apply in_map_iff in I as (y & E & I). destruct (String.eqb_spec id y) as [<-|Ny]; [rewrite subst_eq in E; apply in_g in LX; intuition congruence|]. rewrite subst_ne in E by congruence. congruence.
      * apply NoDup_subst; [exact N2|]. intros I. destruct (succ_key g z blk _ CG LX I) as (by_ & Ly). apply in_g in Ly. tauto.
  - intros c0 g0 z blk' K0 L. apply KO in K0 as [(-> & ->)|(N1 & N2 & K0)]; [|exact (oo_exits _ OO _ _ _ _ K0 L)]. destruct (block_cases z blk' L) as [(-> & ->)|[(-> & ->)|[(bf & LF & ->)|(blk & N & LX & ->)]]].
    + destruct (oo_exits _ OO _ _ _ _ KG LB) as (E1 & E2 & E3 & E4). split; [exact E1|]. split; [|split].
      * intros T. destruct (E2 T) as (A1 & A2 & A3). split; [exact A1|]. split; [exact A2|]. change (option_map (rename_var ρ) (cb_cond b) <> None). destruct (cb_cond b); [discriminate|contradiction].
      * intros T. destruct (E3 T) as (S1 & p & vs & E). split; [exact S1|]. rewrite second_instrs. assert (EP : exists p2, post = p2 ++ [{| li_op := "functionReturn"; li_ins := vs; li_outs := []; li_lits := None |}]).
        { pose proof b_split as EB. rewrite E in EB at 1. assert (D : post = [] \/ post <> []) by (destruct post; [now left|now right]). destruct D as [D|D].
          - exfalso. rewrite D in EB at 1. apply app_inj_tail in EB as (_ & EB). pose proof (oc_function _ _ _ _ _ _ _ OC) as LF. apply lookup_In_key, (oo_reserved _ OO) in LF. rewrite <- call_op, <- EB in LF. cbn in LF. tauto.
          - destruct (exists_last D) as (p2 & l2 & EL). exists p2. rewrite EL. rewrite EL in EB at 1. change (pre ++ call :: p2 ++ [l2]) with (pre ++ (call :: p2) ++ [l2]) in EB. rewrite app_assoc in EB. apply app_inj_tail in EB as (_ & <-). reflexivity. }
        destruct EP as (p2 & ->). exists (phis ++ map (rename_instr ρ) p2), (rename_var_list ρ vs). rewrite map_app, app_assoc. reflexivity.
      * exact E4.
    + split; [discriminate|]. split; [discriminate|]. split; [discriminate|]. reflexivity.
    + destruct (oo_exits _ OO _ _ _ _ KF LF) as (E1 & E2 & E3 & E4). destruct (fin_rest z bf) as (T & C0 & FT & JT). destruct (exits_types z bf LF) as (X1 & X2). unfold exit_ok. rewrite T, C0, FT, JT. destruct (mem z exits).
      * rewrite (X1 eq_refl). cbn [String.eqb]. destruct (E3 (X1 eq_refl)) as (S1 & _). unfold successors in S1. apply app_eq_nil in S1 as (_ & S1). split; [|split; [discriminate|split; [discriminate|intros Q; elim Q; reflexivity]]].
        intros _. split; [discriminate|]. destruct (cb_falls_to bf); [discriminate|reflexivity].
      * destruct (String.eqb_spec (cb_type bf) "FunctionReturn") as [Q|Q]; [discriminate (X2 Q)|]. split; [exact E1|]. split; [|split; [intros Q2; contradiction|exact E4]]. intros Q2. destruct (E2 Q2) as (A1 & A2 & A3). split; [exact A1|]. split; [exact A2|]. destruct (cb_cond bf); [discriminate|contradiction].
    + destruct (oo_exits _ OO _ _ _ _ KG LX) as (E1 & E2 & E3 & E4). change (exit_ok (rename_block ρ (relink id (first_id id) blk))).
      assert (NN : forall o : option string, option_map (subst id (first_id id)) o <> None <-> o <> None) by (intros [q|]; split; intros H; try discriminate; now elim H). unfold exit_ok. cbn [rename_block cb_type cb_jump_to cb_falls_to cb_cond cb_instrs relink set_falls_to set_jump_to].
      rewrite !NN. split; [intros T; destruct (E1 T) as (A1 & ->); auto|]. split.
      * intros T. destruct (E2 T) as (A1 & A2 & A3). split; [exact A1|]. split; [exact A2|]. destruct (cb_cond blk); [discriminate|contradiction].
      * split; [|intros T1 T2; now rewrite (E4 T1 T2)]. intros T. destruct (E3 T) as (S1 & p & vs & E). split; [change (successors (relink id (first_id id) blk) = []); rewrite successors_relink, S1; reflexivity|]. exists (map (rename_instr ρ) p), (rename_var_list ρ vs). rewrite E, map_app. reflexivity.
  - intros c0 g0 z blk' K0 L. apply KO in K0 as [(-> & ->)|(N1 & N2 & K0)]; [|exact (oo_phis _ OO _ _ _ _ K0 L)]. destruct (block_cases z blk' L) as [(-> & ->)|[(-> & ->)|[(bf & LF & ->)|(blk & N & LX & ->)]]].
    + rewrite second_instrs. exists phis, (map (rename_instr ρ) post). split; [reflexivity|]. split; [intros i I; now apply phi_facts in I|]. intros i I. apply in_map_iff in I as (j & <- & I). change (li_op j <> "PhiFunction").
      pose proof (oo_phis _ OO _ _ _ _ KG LB) as PB. rewrite b_split in PB. exact (phis_app_right _ _ _ PB call_not_phi j I).
    + pose proof (oo_phis _ OO _ _ _ _ KG LB) as PB. rewrite b_split in PB. apply phis_app_left in PB. exact (name_split _ _ (rename_instr ρ) PB (fun _ _ => eq_refl) eq_refl).
    + pose proof (oo_phis _ OO _ _ _ _ KF LF) as PB. rewrite fin_instrs. assert (PT : phis_first (map τ (cb_instrs bf))) by exact (name_split _ _ τ PB (fun _ _ => eq_refl) eq_refl). destruct (mem z exits) eqn:Mz; [|exact PT].
      destruct (exit_instrs z bf LF Mz) as (p & l & EB & _). rewrite EB, map_app in PT |- *. cbn [map] in *. rewrite removelast_last. now apply phis_app_left in PT.
    + pose proof (oo_phis _ OO _ _ _ _ KG LX) as PB. exact (name_split _ _ (rename_instr ρ) PB (fun _ _ => eq_refl) eq_refl).
  - intros c0 g0 z blk' i' K0 L S. apply KO in K0 as [(-> & ->)|(N1 & N2 & K0)]; [|destruct (oo_split _ OO _ _ _ _ _ K0 L S) as (A & p & E); split; [|now exists p]; apply still_listed; [exact A|]; eapply elsewhere_not_call; [exact N1|exact K0|exact L|]; rewrite E; apply in_app_iff; right; now left]. destruct (block_cases z blk' L) as [(-> & ->)|[(-> & ->)|[(bf & LF & ->)|(blk & N & LX & ->)]]].
    + discriminate.
    + discriminate.
    + rewrite fin_split in S. rewrite fin_instrs. destruct (mem z exits); [discriminate|]. destruct (cb_split bf) as [i|] eqn:SB; [|discriminate]. cbn [option_map] in S. assert (i' = τ i) by congruence. subst i'. destruct (oo_split _ OO _ _ _ _ _ KF LF SB) as (A & p & E). split; [apply still_listed; [exact A|]; apply (inner_not_call z bf i LF); rewrite E; apply in_app_iff; right; now left|]. exists (map τ p). now rewrite E, map_app.
    + change (option_map (rename_instr ρ) (cb_split blk) = Some i') in S. destruct (cb_split blk) as [i|] eqn:SB; [|discriminate]. cbn [option_map] in S. assert (i' = rename_instr ρ i) by congruence. subst i'. destruct (oo_split _ OO _ _ _ _ _ KG LX SB) as (A & p & E). split; [apply still_listed; [exact A|]; apply (other_not_call z blk i N LX); rewrite E; apply in_app_iff; right; now left|].
      exists (map (rename_instr ρ) p). change (map (rename_instr ρ) (cb_instrs blk) = map (rename_instr ρ) p ++ [rename_instr ρ i]). now rewrite E, map_app.
  - intros c0 g0 z blk' p' i' q' K0 L E LE. apply KO in K0 as [(-> & ->)|(N1 & N2 & K0)]; [|exact (oo_leaving _ OO _ _ _ _ _ _ _ K0 L E LE)].
    assert (NPH : li_op i' <> "PhiFunction") by (intros Q; rewrite Q in LE; cbn in LE; intuition discriminate).
    destruct (at_inv z blk' p' i' q' L E NPH) as [(p & i & q & -> & -> & EB & -> & ->)|[(p & i & q & -> & -> & EB & -> & ->)|[(bf & p & i & q & LF & -> & EB & -> & NRt & QQ)|(blk & p & i & q & N & LX & -> & EB & -> & ->)]]].
    + apply split_post in EB. destruct (oo_leaving _ OO _ _ _ _ _ _ _ KG LB EB LE) as (-> & A2 & A3). split; [reflexivity|]. split; [exact A2|exact A3].
    + apply split_pre in EB. destruct (oo_leaving _ OO _ _ _ _ _ _ _ KG LB EB LE) as (Q & _). destruct q; discriminate.
    + destruct (oo_leaving _ OO _ _ _ _ _ _ _ KF LF EB LE) as (-> & A2 & A3). destruct QQ as [(Mz & ->)|(_ & Q)]; [|contradiction]. split; [reflexivity|]. destruct (fin_rest z bf) as (T & _). rewrite T.
      assert (NFR : cb_type bf <> "FunctionReturn") by (intros Q; apply (exits_types z bf LF) in Q; congruence). destruct (String.eqb_spec (cb_type bf) "FunctionReturn"); [contradiction|]. split; [exact A2|]. intros Q. exact (A3 Q).
    + destruct (oo_leaving _ OO _ _ _ _ _ _ _ KG LX EB LE) as (-> & A2 & A3). split; [reflexivity|]. split; [exact A2|exact A3].
  - intros c0 g0 z blk' i' K0 L I. assert (BZ := BK _ _ _ _ K0 L). split; [|split].
    + apply KO in K0 as [(-> & ->)|(N1 & N2 & K0)]; [|exact (proj1 (oo_plain _ OO _ _ _ _ _ K0 L I))]. destruct (comes_from z blk' i' L I) as [p _ P|y blk i Ly Iy _|bf i Ly Iy NJ].
      * apply phi_facts in P as (_ & O & _). rewrite O. cbn. intuition discriminate.
      * exact (proj1 (oo_plain _ OO _ _ _ _ _ KG Ly Iy)).
      * exact (proj1 (oo_plain _ OO _ _ _ _ _ KF Ly Iy)).
    + intros _ v J. eapply read_ins; eauto.
    + intros _ r R J. destruct (read_ins _ _ _ _ _ BZ I J) as (_ & H). unfold return_name in R. destruct c0 as [h|]; [|discriminate]. destruct (lookup h (ob_functions ob')) as [kh|] eqn:LH; [|discriminate].
      apply (H h); [eapply lookup_In_key; eauto|]. destruct (cl_return (fn_blocks kh)); [discriminate|]. congruence.
  - intros c1 c2 x y w N1 N2 FW ->. destruct (based _ _ N1) as (d1 & x0 & P1 & S1 & C1 & Q1). destruct (based _ _ N2) as (d2 & y0 & P2 & S2 & C2 & Q2).
    destruct (JumpProps.names_apart ob OO d1 d2 x0 y0 P1 P2) as [(<- & <-)|AP].
    + assert (EC : c1 = c2) by intuition congruence. split; [|exact EC]. destruct Q1 as [(-> & T1)|(-> & -> & T1)].
      * destruct Q2 as [(Q2 & _)|(-> & -> & _)]; [now symmetry|tauto].
      * destruct Q2 as [(_ & T2)|(_ & _ & T2)]; [tauto|]. clear -T1 T2 FW. unfold first_id, second_id in *.
        assert (CA : forall a u v : string, (a ++ u = a ++ v)%string -> u = v) by (induction a as [|ch a IH]; intros u v Q; [exact Q|]; cbn in Q; injection Q as Q; auto).
        destruct T1 as [ -> | -> ], T2 as [T2|T2]; rewrite JumpProofs.str_app_assoc in T2; apply CA in T2; try discriminate; injection T2 as ->; now rewrite JumpProofs.str_app_nil.
    + elim (AP (x ++ w)%string); [|exact S2]. eapply JumpProofs.spread_trans; [exact S1|]. exists w. auto.
Qed.

(** ** Where the other calls are *)
Definition moved (c0 : option string) (b0 : string) (n0 : nat) : option string * string * nat :=
  if opt_eqb c0 (Some f) then (c, b0, n0)
  else if opt_eqb c0 c && String.eqb b0 id then if Nat.ltb n0 pos then (c, first_id id, n0) else (c, second_id id, length phis + (n0 - (pos + 1)))
  else (c0, b0, n0).
Lemma moved_f x n : moved (Some f) x n = (c, x, n). Proof. unfold moved. now rewrite opt_eqb_refl. Qed.
Lemma moved_c x n : x <> id -> moved c x n = (c, x, n).
Proof. intros N. unfold moved. rewrite opt_eqb_neq by exact (oc_outside _ _ _ _ _ _ _ OC). rewrite opt_eqb_refl. destruct (String.eqb_spec x id); [contradiction|reflexivity]. Qed.
Lemma moved_id n : moved c id n = if Nat.ltb n pos then (c, first_id id, n) else (c, second_id id, length phis + (n - (pos + 1))).
Proof. unfold moved. rewrite opt_eqb_neq by exact (oc_outside _ _ _ _ _ _ _ OC). now rewrite opt_eqb_refl, String.eqb_refl. Qed.
Lemma moved_other c0 x n : c0 <> c -> c0 <> Some f -> moved c0 x n = (c0, x, n).
Proof. intros N1 N2. unfold moved. rewrite !opt_eqb_neq by assumption. reflexivity. Qed.
Lemma nth_removelast {A} (p : list A) l n : n < length p -> nth_error (p ++ [l]) n = nth_error p n. Proof. intros H. now rewrite nth_error_app1. Qed.
Lemma pre_length : length pre = pos. Proof. apply firstn_length_le. assert (pos < length (cb_instrs b)) by (apply nth_error_Some; congruence). lia. Qed.
Lemma calls_back h c1 z n : call_at ob' h c1 z n -> h <> "PhiFunction" -> exists c0 b0 n0, call_at ob h c0 b0 n0 /\ (c1, z, n) = moved c0 b0 n0.
Proof.
  intros (blk' & i' & B & E & O) NP. destruct (block_cases' c1 z blk' B) as [(-> & L)|(N1 & N2 & B0)]; [|exists c1, z, n; rewrite moved_other by assumption; split; [exists blk', i'; auto|reflexivity]].
  assert (NT : forall (r : linstr -> linstr) l m j', nth_error (map r l) m = Some j' -> exists j, nth_error l m = Some j /\ j' = r j) by (intros r l m j' Q; rewrite nth_error_map in Q; destruct (nth_error l m) as [j|]; [cbn [option_map] in Q; exists j; split; [reflexivity|congruence]|discriminate]).
  destruct (block_cases z blk' L) as [(-> & ->)|[(-> & ->)|[(bf & LF & ->)|(blk & N & LX & ->)]]].
  - rewrite second_instrs in E. destruct (Nat.lt_ge_cases n (length phis)) as [H|H]; [rewrite nth_error_app1 in E by exact H; apply nth_error_In in E; apply phi_facts in E; exfalso; apply NP; rewrite <- O; tauto|].
    rewrite nth_error_app2 in E by exact H. apply NT in E as (j & Ej & ->). exists c, id, (pos + 1 + (n - length phis)). split.
    + exists b, j. rewrite block_c. split; [exact LB|]. split; [|exact O]. pose proof (nth_error_In _ _ Ej) as _. rewrite <- Ej. rewrite <- (firstn_skipn (pos + 1) (cb_instrs b)) at 1. assert (PL : length (firstn (pos + 1) (cb_instrs b)) = pos + 1) by (apply firstn_length_le; assert (pos < length (cb_instrs b)) by (apply nth_error_Some; congruence); lia).
      rewrite nth_error_app2 by lia. f_equal. lia.
    + rewrite moved_id. destruct (Nat.ltb_spec (pos + 1 + (n - length phis)) pos); [lia|]. f_equal. lia.
  - change (nth_error (map (rename_instr ρ) pre) n = Some i') in E. apply NT in E as (j & Ej & ->). assert (H : n < pos) by (rewrite <- pre_length; apply nth_error_Some; congruence). exists c, id, n. split.
    + exists b, j. rewrite block_c. split; [exact LB|]. split; [|exact O]. rewrite <- Ej. rewrite <- (firstn_skipn pos (cb_instrs b)) at 1. apply nth_error_app1. now rewrite pre_length.
    + rewrite moved_id. destruct (Nat.ltb_spec n pos); [reflexivity|lia].
  - exists (Some f), z, n. rewrite moved_f. split; [|reflexivity]. rewrite fin_instrs in E. assert (EJ : exists j, nth_error (cb_instrs bf) n = Some j /\ i' = τ j).
    { destruct (mem z exits) eqn:Mz; [|now apply NT]. destruct (exit_instrs z bf LF Mz) as (p & l & EB & _). rewrite EB, map_app in E. cbn [map] in E. rewrite removelast_last in E. apply NT in E as (j & Ej & ->). exists j. split; [|reflexivity].
      rewrite EB, nth_error_app1; [exact Ej|]. apply nth_error_Some. congruence. }
    destruct EJ as (j & Ej & ->). exists bf, j. rewrite block_f. auto.
  - change (nth_error (map (rename_instr ρ) (cb_instrs blk)) n = Some i') in E. apply NT in E as (j & Ej & ->). exists c, z, n. rewrite moved_c by exact N. split; [|reflexivity]. exists blk, j. rewrite block_c. auto.
Qed.
Lemma calls_there h c0 b0 n0 : call_at ob h c0 b0 n0 -> h <> f -> h <> "functionReturn" -> let '(c1, z, n) := moved c0 b0 n0 in call_at ob' h c1 z n.
Proof.
  intros (blk & i & B & E & O) NF NR0. destruct (component_cases c0) as [->|[->|(N1 & N2)]].
  - rewrite block_c in B. destruct (string_dec b0 id) as [->|N].
    + assert (blk = b) by congruence. subst blk. rewrite moved_id. destruct (Nat.ltb_spec n0 pos) as [H|H].
      * exists (rename_block ρ (before_call id b pos start)), (rename_instr ρ i). split; [apply blk_first|]. split; [|exact O]. change (nth_error (map (rename_instr ρ) pre) n0 = Some (rename_instr ρ i)). rewrite nth_error_map. rewrite <- (firstn_skipn pos (cb_instrs b)) in E. rewrite nth_error_app1 in E by (now rewrite pre_length). now rewrite E.
      * assert (n0 <> pos) by (intros ->; rewrite NC in E; injection E as <-; exact (NF (eq_trans (eq_sym O) call_op))). exists (rename_block ρ (after_call id b pos ff phis)), (rename_instr ρ i). split; [apply blk_second|]. split; [|exact O]. rewrite second_instrs, nth_error_app2 by lia.
        rewrite nth_error_map. assert (PL : length (firstn (pos + 1) (cb_instrs b)) = pos + 1) by (apply firstn_length_le; assert (pos < length (cb_instrs b)) by (apply nth_error_Some; congruence); lia). rewrite <- (firstn_skipn (pos + 1) (cb_instrs b)) in E. rewrite nth_error_app2 in E by lia. rewrite PL in E. replace (length phis + (n0 - (pos + 1)) - length phis) with (n0 - (pos + 1)) by lia. now rewrite E.
    + rewrite moved_c by exact N. exists (rename_block ρ (edit id blk)), (rename_instr ρ i). split; [now apply blk_other|]. split; [|exact O]. change (nth_error (map (rename_instr ρ) (cb_instrs blk)) n0 = Some (rename_instr ρ i)). now rewrite nth_error_map, E.
  - rewrite moved_f. rewrite block_f in B. exists (final id call ff ret start b0 blk), (τ i). split; [now apply blk_inner|]. split; [|exact O]. rewrite fin_instrs. destruct (mem b0 exits) eqn:Mz; [|now rewrite nth_error_map, E].
    destruct (exit_instrs b0 blk B Mz) as (p & l & EB & OL & _). rewrite EB, map_app. cbn [map]. rewrite removelast_last, nth_error_map. rewrite EB in E. destruct (Nat.lt_ge_cases n0 (length p)) as [H|H]; [rewrite nth_error_app1 in E by exact H; now rewrite E|].
    rewrite nth_error_app2 in E by exact H. destruct (n0 - length p) as [|[|]]; try discriminate. cbn in E. congruence.
  - rewrite moved_other by assumption. exists blk, i. rewrite B2 by assumption. auto.
Qed.
Lemma once_kept h : h <> f -> called_once ob h -> called_once ob' h.
Proof.
  intros NF (I & c0 & b0 & n0 & C0 & U). assert (R := oo_reserved _ OO h I). assert (NR0 : h <> "functionReturn") by (intros ->; apply R; cbn; tauto). assert (NP : h <> "PhiFunction") by (intros ->; apply R; cbn; tauto).
  split; [rewrite FNS; apply filter_In; split; [exact I|]; destruct (String.eqb_spec h f); [contradiction|reflexivity]|]. pose proof (calls_there h c0 b0 n0 C0 NF NR0) as C1. destruct (moved c0 b0 n0) as [[c1 z] n] eqn:MV. exists c1, z, n. split; [exact C1|].
  intros c2 z2 n2 C2. apply calls_back in C2 as (c3 & b3 & n3 & C3 & E3); [|exact NP]. destruct (U _ _ _ C3) as (-> & -> & ->). rewrite MV in E3. injection E3 as -> -> ->. auto.
Qed.
(** ** What the blocks do *)
Definition plain_ops (l : list linstr) : list string := map li_op (snd (phis_of l)).
Lemma ops_map r l : (forall i : linstr, li_op (r i) = li_op i) -> plain_ops (map r l) = plain_ops l.
Proof.
  intros H. unfold plain_ops. induction l as [|i l IH]; [reflexivity|]. cbn [map phis_of]. rewrite H. destruct (String.eqb (li_op i) "PhiFunction"); [|cbn [snd map]; rewrite H, map_map; f_equal; apply map_ext; exact H].
  destruct (phis_of (map r l)), (phis_of l). exact IH.
Qed.
Lemma ops_other c0 z blk : ~ (c0 = c /\ z = id) -> c0 <> Some f -> block_at ob c0 z = Some blk -> exists blk', block_at ob' c0 z = Some blk' /\ plain_ops (cb_instrs blk') = plain_ops (cb_instrs blk).
Proof.
  intros N NF B. destruct (component_cases c0) as [->|[->|(N1 & N2)]]; [|contradiction|rewrite B2 by assumption; eauto]. rewrite block_c in B. exists (rename_block ρ (edit id blk)). split; [apply blk_other; tauto|]. exact (ops_map (rename_instr ρ) (cb_instrs blk) (fun _ => eq_refl)).
Qed.
Lemma ops_split : exists b1 b2, block_at ob' c (first_id id) = Some b1 /\ block_at ob' c (second_id id) = Some b2 /\ plain_ops (cb_instrs b) = plain_ops (cb_instrs b1) ++ f :: plain_ops (cb_instrs b2)
  /\ pos = length (fst (phis_of (cb_instrs b))) + length (plain_ops (cb_instrs b1)).
Proof.
  exists (rename_block ρ (before_call id b pos start)), (rename_block ρ (after_call id b pos ff phis)). split; [apply blk_first|]. split; [apply blk_second|]. unfold plain_ops at 3. rewrite phis_second. cbn [snd].
  replace (plain_ops (cb_instrs (rename_block ρ (before_call id b pos start)))) with (plain_ops pre) by (symmetry; exact (ops_map (rename_instr ρ) pre (fun _ => eq_refl))).
  assert (PA : forall l1 l2, li_op call <> "PhiFunction" -> phis_of (l1 ++ call :: l2) = (fst (phis_of l1), snd (phis_of l1) ++ call :: l2)).
  { intros l1 l2 NP. induction l1 as [|i l1 IH]; cbn [app phis_of].
    - destruct (String.eqb_spec (li_op call) "PhiFunction"); [contradiction|reflexivity].
    - destruct (String.eqb (li_op i) "PhiFunction"); [|reflexivity]. rewrite IH. destruct (phis_of l1). reflexivity. }
  pose proof (PA pre post call_not_phi) as E. rewrite <- b_split in E. split.
  - unfold plain_ops. rewrite E. cbn [snd]. rewrite map_app. cbn [map]. rewrite call_op, map_map. reflexivity.
  - rewrite E. cbn [fst]. unfold plain_ops. rewrite map_length, <- app_length, <- phis_of_split. symmetry. exact pre_length.
Qed.

(** ** The layout of the blocks *)
Section Layout.
Import Relations MergePassProps RemoveProps ObjCombineSpec ObjLayoutSpec.
Hypothesis LO : laid_out ob.
Lemma edge_in g0 x y : consistent g0 -> edge g0 x y -> (exists bx, lookup x (cl_blocks g0) = Some bx) /\ exists by_, lookup y (cl_blocks g0) = Some by_.
Proof. intros C E. assert (E2 := E). destruct E2 as (bx & L & _). split; [eauto|]. rewrite (edge_succ _ _ _ _ L) in E. eapply succ_key; eauto. Qed.
Lemma no_loop_edge c0 g0 x : JumpSpec.component ob c0 g0 -> ~ edge g0 x x.
Proof. intros K E. assert (E2 := E). destruct E2 as (bx & L & _). rewrite (edge_succ _ _ _ _ L) in E. now apply (oo_links _ OO _ _ _ _ K L). Qed.
Lemma second_lookup : lookup (second_id id) (cl_blocks g') = Some (rename_block ρ (after_call id b pos ff phis)). Proof. rewrite <- B1. apply blk_second. Qed.
Lemma first_lookup : lookup (first_id id) (cl_blocks g') = Some (rename_block ρ (before_call id b pos start)). Proof. rewrite <- B1. apply blk_first. Qed.
Lemma other_lookup x blk : x <> id -> lookup x (cl_blocks g) = Some blk -> lookup x (cl_blocks g') = Some (rename_block ρ (edit id blk)). Proof. rewrite <- B1. apply blk_other. Qed.
Lemma inner_lookup x bf : lookup x (cl_blocks F) = Some bf -> lookup x (cl_blocks g') = Some (final id call ff ret start x bf). Proof. rewrite <- B1. apply blk_inner. Qed.
Lemma edit_succ blk : successors (rename_block ρ (edit id blk)) = map (subst id (first_id id)) (successors blk).
Proof. change (successors (rename_block ρ (edit id blk))) with (successors (relink id (first_id id) blk)). apply successors_relink. Qed.
Inductive leads (x y : string) : Prop :=
| le_second : x = second_id id -> edge g id y -> y <> id -> leads x y
| le_first : x = first_id id -> y = start -> leads x y
| le_exit bf : lookup x (cl_blocks F) = Some bf -> mem x exits = true -> y = second_id id -> leads x y
| le_inner bf : lookup x (cl_blocks F) = Some bf -> mem x exits = false -> edge F x y -> leads x y
| le_other y0 : x <> id -> edge g x y0 -> y = subst id (first_id id) y0 -> leads x y.
Lemma edge_iff x y : edge g' x y <-> leads x y.
Proof.
  split; intros E.
  - assert (E2 := E). destruct E2 as (bx & L & _). rewrite (edge_succ _ _ _ _ L) in E. destruct (block_cases x bx L) as [(-> & ->)|[(-> & ->)|[(bf & LF & ->)|(blk & N & LX & ->)]]].
    + change (In y (successors b)) in E. apply (edge_succ _ _ y _ LB) in E. apply le_second; auto. intros ->. exact (no_loop_edge _ _ _ KG E).
    + cbn in E. destruct E as [<-|[]]. now apply le_first.
    + rewrite (fin_succ x bf LF) in E. destruct (mem x exits) eqn:Mx; [destruct E as [<-|[]]; eapply le_exit; eauto|]. apply (le_inner x y bf LF Mx). now apply (edge_succ _ _ _ _ LF).
    + rewrite edit_succ in E. apply in_map_iff in E as (y0 & <- & E). apply (le_other x _ y0 N); [now apply (edge_succ _ _ _ _ LX)|reflexivity].
  - destruct E as [-> E _| -> ->|bf LF Mx ->|bf LF Mx E|y0 N E ->].
    + apply (edge_succ _ _ _ _ second_lookup). change (In y (successors b)). now apply (edge_succ _ _ _ _ LB).
    + apply (edge_succ _ _ _ _ first_lookup). now left.
    + apply (edge_succ _ _ _ _ (inner_lookup x bf LF)). rewrite (fin_succ x bf LF), Mx. now left.
    + apply (edge_succ _ _ _ _ (inner_lookup x bf LF)). rewrite (fin_succ x bf LF), Mx. now apply (edge_succ _ _ _ _ LF).
    + assert (E2 := E). destruct E2 as (bx & L & _). apply (edge_succ _ _ _ _ (other_lookup x bx N L)). rewrite edit_succ. apply in_map. now apply (edge_succ _ _ _ _ L).
Qed.
Definition in_fun (x : string) : Prop := exists bf, lookup x (cl_blocks F) = Some bf.
Lemma inner_dec x : {in_fun x} + {~ in_fun x}.
Proof. unfold in_fun. destruct (lookup x (cl_blocks F)); [left; eauto|right; intros (? & Q); discriminate]. Qed.
Lemma start_inner : in_fun start.
Proof. destruct (c_start _ CFF) as (s & E & I). rewrite START in E. injection E as <-. unfold in_fun. destruct (lookup start (cl_blocks F)) eqn:L; [eauto|apply lookup_None in L; contradiction]. Qed.
Lemma not_inner x y : edge g x y -> ~ in_fun x /\ ~ in_fun y /\ x <> first_id id /\ x <> second_id id /\ y <> first_id id /\ y <> second_id id.
Proof.
  intros E. destruct (edge_in _ _ _ CG E) as ((bx & Lx) & by_ & Ly). destruct (in_g x bx Lx) as (A1 & A2 & A3). destruct (in_g y by_ Ly) as (A4 & A5 & A6).
  split; [intros (q & Q); congruence|]. split; [intros (q & Q); congruence|auto].
Qed.
Lemma inner_names x : in_fun x -> x <> first_id id /\ x <> second_id id /\ x <> id /\ lookup x (cl_blocks g) = None. Proof. intros (bf & L). now apply (in_f x bf). Qed.
Lemma into_inner x y : edge g' x y -> in_fun y -> (in_fun x /\ edge F x y) \/ (x = first_id id /\ y = start).
Proof.
  intros E I. apply edge_iff in E as [_ E _| -> ->|bf _ _ ->|bf LF _ E|y0 _ E ->].
  - apply not_inner in E. tauto.
  - auto.
  - apply inner_names in I. tauto.
  - left. split; [exists bf; exact LF|exact E].
  - exfalso. apply not_inner in E as (_ & NI & _). destruct (string_dec y0 id) as [->|N]; [rewrite subst_eq in I; apply inner_names in I; tauto|]. rewrite subst_ne in I by exact N. contradiction.
Qed.
Lemma into_second x : edge g' x (second_id id) -> in_fun x /\ mem x exits = true.
Proof.
  intros E. apply edge_iff in E as [_ E _|_ E|bf LF Mx _|bf LF _ E|y0 _ E Q].
  - apply not_inner in E. tauto.
  - pose proof start_inner as I. rewrite <- E in I. apply inner_names in I. tauto.
  - split; [exists bf; exact LF|exact Mx].
  - apply (edge_in _ _ _ CFF) in E as (_ & I). apply inner_names in I. tauto.
  - exfalso. apply not_inner in E as (_ & _ & _ & _ & _ & N2). destruct (string_dec y0 id) as [->|N]; [rewrite subst_eq in Q; symmetry in Q; exact (halves_ne id Q)|]. rewrite subst_ne in Q by exact N. congruence.
Qed.
(** Where the edges of the caller have gone. *)
Lemma edge_moved x y : edge g x y -> edge g' (if String.eqb x id then second_id id else x) (subst id (first_id id) y).
Proof.
  intros E. apply edge_iff. destruct (String.eqb_spec x id) as [->|N]; [|now apply (le_other x _ y)].
  assert (N : y <> id) by (intros ->; exact (no_loop_edge _ _ _ KG E)). rewrite subst_ne by exact N. now apply le_second.
Qed.
Lemma start' s : cl_start g' = Some s -> (s = first_id id /\ cl_start g = Some id) \/ (s <> id /\ cl_start g = Some s).
Proof.
  rewrite SG'. destruct (opt_eqb (Some id) (cl_start g)) eqn:E; [apply opt_eqb_eq in E; intros Q; left; split; congruence|]. intros Q. right. split; [intros ->; rewrite Q, opt_eqb_refl in E; discriminate|exact Q].
Qed.
Lemma start_outside s : cl_start g = Some s -> exists bs, lookup s (cl_blocks g) = Some bs.
Proof. intros E. destruct (c_start _ CG) as (s0 & E0 & I). rewrite E in E0. injection E0 as <-. destruct (lookup s (cl_blocks g)) eqn:L; [eauto|apply lookup_None in L; contradiction]. Qed.
Lemma keep_start_first : start_first g'.
Proof.
  intros s x S E. pose proof (lo_start _ LO _ _ KG) as SF. destruct (start' s S) as [(-> & S0)|(N & S0)].
  - apply edge_iff in E as [_ E _|_ Q|bf _ _ Q|bf _ _ E|y0 _ E Q].
    + apply not_inner in E. tauto.
    + pose proof start_inner as I. rewrite <- Q in I. apply inner_names in I. tauto.
    + exact (halves_ne id Q).
    + apply (edge_in _ _ _ CFF) in E as (_ & I). apply inner_names in I. tauto.
    + destruct (string_dec y0 id) as [->|Ny]; [exact (SF _ _ S0 E)|]. rewrite subst_ne in Q by exact Ny. apply not_inner in E. intuition congruence.
  - destruct (start_outside s S0) as (bs & Ls). destruct (in_g s bs Ls) as (A1 & A2 & A3). apply edge_iff in E as [_ E _|_ Q|bf _ _ Q|bf _ _ E|y0 _ E Q].
    + exact (SF _ _ S0 E).
    + destruct start_inner as (q & I). congruence.
    + contradiction.
    + apply (edge_in _ _ _ CFF) in E as (_ & q & I). congruence.
    + destruct (string_dec y0 id) as [->|Ny]; [rewrite subst_eq in Q; contradiction|]. rewrite subst_ne in Q by exact Ny. subst y0. exact (SF _ _ S0 E).
Qed.

(** Chains. *)
Definition pr (z : string) : string := if inner_dec z then id else if String.eqb z (first_id id) then id else if String.eqb z (second_id id) then id else z.
Lemma pr_inner z : in_fun z -> pr z = id. Proof. unfold pr. destruct (inner_dec z); tauto. Qed.
Lemma pr_first : pr (first_id id) = id. Proof. unfold pr. destruct (inner_dec (first_id id)); [reflexivity|]. now rewrite String.eqb_refl. Qed.
Lemma pr_second : pr (second_id id) = id. Proof. unfold pr. destruct (inner_dec (second_id id)); [reflexivity|]. destruct (String.eqb (second_id id) (first_id id)); [reflexivity|]. now rewrite String.eqb_refl. Qed.
Lemma pr_other z : ~ in_fun z -> z <> first_id id -> z <> second_id id -> pr z = z.
Proof. intros A B C. unfold pr. destruct (inner_dec z); [contradiction|]. destruct (String.eqb_spec z (first_id id)); [contradiction|]. destruct (String.eqb_spec z (second_id id)); [contradiction|reflexivity]. Qed.
Notation chain := (clos_refl_trans_n1 string (alone g')).
Lemma chain_pr u v : alone g' u v -> clos_refl_trans string (alone g) (pr u) (pr v).
Proof.
  intros (E & U & P). assert (E2 := E). apply edge_iff in E2 as [-> E2 N| -> ->|bf LF Mx ->|bf LF Mx E2|y0 N E2 ->].
  - destruct (not_inner _ _ E2) as (_ & A1 & _ & _ & A2 & A3). rewrite pr_second, (pr_other v) by assumption. apply rt_step. split; [exact E2|]. split.
    + intros z Ez. pose proof (edge_moved _ _ Ez) as Q. rewrite String.eqb_refl in Q. rewrite subst_ne in Q by (intros ->; exact (no_loop_edge _ _ _ KG Ez)). now apply U.
    + intros z Ez. pose proof (edge_moved _ _ Ez) as Q. rewrite subst_ne in Q by exact N. apply P in Q. destruct (String.eqb_spec z id) as [->|Nz]; [reflexivity|]. apply not_inner in Ez. tauto.
  - rewrite pr_first, (pr_inner _ start_inner). apply rt_refl.
  - rewrite pr_second, (pr_inner u) by (exists bf; exact LF). apply rt_refl.
  - rewrite (pr_inner u) by (exists bf; exact LF). rewrite (pr_inner v) by (apply (edge_in _ _ _ CFF) in E2; tauto). apply rt_refl.
  - destruct (not_inner _ _ E2) as (A0 & A1 & A4 & A5 & A2 & A3). rewrite (pr_other u) by assumption. assert (PV : pr (subst id (first_id id) y0) = y0) by (destruct (string_dec y0 id) as [->|Ny]; [rewrite subst_eq; apply pr_first|rewrite subst_ne by exact Ny; now apply pr_other]).
    rewrite PV. apply rt_step. split; [exact E2|]. split.
    + intros z Ez. pose proof (edge_moved _ _ Ez) as Q. destruct (String.eqb_spec u id); [contradiction|]. apply U in Q. destruct (not_inner _ _ Ez) as (_ & _ & _ & _ & Z1 & _). destruct (string_dec z id) as [->|Nz], (string_dec y0 id) as [->|Ny]; [reflexivity| | |].
      * rewrite subst_eq, (subst_ne _ _ y0) in Q by exact Ny. congruence.
      * rewrite subst_eq, (subst_ne _ _ z) in Q by exact Nz. congruence.
      * rewrite !subst_ne in Q by assumption. exact Q.
    + intros z Ez. pose proof (edge_moved _ _ Ez) as Q. apply P in Q. destruct (String.eqb_spec z id) as [->|Nz]; [congruence|exact Q].
Qed.
Lemma chain_rt u v : chain u v -> clos_refl_trans string (alone g) (pr u) (pr v).
Proof. induction 1 as [|y z A _ IH]; [apply rt_refl|]. eapply rt_trans; [exact IH|now apply chain_pr]. Qed.
Lemma ct_rt {A} (R : A -> A -> Prop) u v : clos_trans A R u v -> clos_refl_trans A R u v.
Proof. induction 1; [now apply rt_step|eapply rt_trans; eauto]. Qed.
Lemma rt_cases {A} (R : A -> A -> Prop) u v : clos_refl_trans A R u v -> u = v \/ clos_trans A R u v.
Proof. induction 1 as [u v H|u|u v w _ [->|H1] _ [->|H2]]; [right; now constructor|now left| | | |]; auto. right. eapply t_trans; eauto. Qed.
(** A chain that enters the function comes from the first half. *)
Lemma chain_enters a v : ~ in_fun a -> chain a v -> ~ in_fun v \/ chain a (first_id id).
Proof.
  intros NA. induction 1 as [|y z (E & _) H [IH|IH]]; [now left| |now right]. destruct (inner_dec z) as [Iz|Nz]; [|now left]. right. destruct (into_inner _ _ E Iz) as [(Q & _)|(-> & _)]; [contradiction|exact H].
Qed.
Lemma chain_inside a v : in_fun a -> chain a v -> (in_fun v /\ clos_refl_trans string (alone F) a v) \/ ~ in_fun v \/ chain a (first_id id).
Proof.
  intros IA. induction 1 as [|y z (E & U & P) H [(Iy & IH)|[IH|IH]]]; [left; split; [exact IA|apply rt_refl]| | |auto].
  - destruct (inner_dec z) as [Iz|Nz]; [|auto]. destruct (into_inner _ _ E Iz) as [(_ & E2)|(-> & _)]; [|apply inner_names in Iy; tauto]. left. split; [exact Iz|]. eapply rt_trans; [exact IH|]. apply rt_step. split; [exact E2|].
    assert (IE : forall p q, edge F p q -> edge g' p q).
    { intros p q Q. apply edge_iff. assert (Q2 := Q). destruct Q2 as (bp & Lp & _). destruct (mem p exits) eqn:Mp; [|now apply (le_inner p q bp)]. exfalso. destruct (exit_instrs p bp Lp Mp) as (_ & _ & _ & _ & _ & S & _). apply (edge_succ _ _ _ _ Lp) in Q. rewrite S in Q. destruct Q. }
    split; intros q Q; [apply U|apply P]; now apply IE.
  - destruct (inner_dec z) as [Iz|Nz]; [|auto]. right. right. destruct (into_inner _ _ E Iz) as [(Q & _)|(-> & _)]; [contradiction|exact H].
Qed.
Lemma path_of g0 x rest s : reached_without g0 [] x rest -> cl_start g0 = Some s -> reachable g0 s x.
Proof.
  intros H S. induction H as [s0 blk rest E L P|x i rest _ IH _|x blk x' blk' ps rest _ IH L I _ _ _].
  - rewrite S in E. injection E as ->. apply rt_refl.
  - exact IH.
  - eapply rt_trans; [exact IH|]. apply rt_step. now apply (edge_succ _ _ _ _ L).
Qed.
Lemma first_reached s : cl_start g' = Some s -> reachable g' s (first_id id).
Proof.
  intros S. eapply path_of; [|exact S]. eapply (keep_reached c g'); [apply KO; auto|exact first_lookup|]. right. discriminate.
Qed.
(** Nothing leads from outside into the function and a closed chain with it. *)
Lemma no_way_in a : (in_fun a \/ a = second_id id) -> chain a (first_id id) -> False.
Proof.
  intros A CH. set (S := fun x => in_fun x \/ chain a x).
  assert (BK : forall u v, edge g' u v -> S v -> S u).
  { intros u v E Sv. destruct (inner_dec v) as [Iv|Nv].
    - destruct (into_inner _ _ E Iv) as [(Iu & _)|(-> & _)]; [now left|now right].
    - destruct Sv as [Iv|Cv]; [contradiction|]. destruct Cv as [|y z (_ & _ & P) H].
      + destruct A as [Ia| ->]; [contradiction|]. apply into_second in E. left. tauto.
      + apply P in E. subst u. now right. }
  destruct (c_start _ CG') as (s & ES & _). pose proof (first_reached s ES) as R. assert (SS0 : S s).
  { assert (G : forall u v, clos_refl_trans_1n string (edge g') u v -> S v -> S u) by (induction 1 as [|u y z E _ IH]; [auto|intros Sz; eapply BK; eauto]). apply (G s (first_id id)); [now apply clos_rt_rt1n|]. now right. }
  assert (NI : ~ in_fun s /\ s <> second_id id).
  { destruct (start' s ES) as [(-> & _)|(_ & E0)]; [split; [intros I; apply inner_names in I; tauto|apply halves_ne]|]. destruct (start_outside s E0) as (bs & Ls). destruct (in_g s bs Ls) as (_ & A2 & A3). split; [intros (q & Q); congruence|exact A2]. }
  destruct SS0 as [I|Cs]; [tauto|]. destruct Cs as [|y z (E & _) H]; [destruct A; tauto|]. exact (keep_start_first _ _ ES E).
Qed.
Lemma keep_chain : no_closed_chain g'.
Proof.
  intros a z CH E. assert (C2 : chain a z) by now apply clos_rt_rtn1, ct_rt.
  destruct (inner_dec a) as [Ia|Na].
  - destruct (chain_inside a z Ia C2) as [(Iz & R)|[Nz|Q]]; [| |exact (no_way_in a (or_introl Ia) Q)].
    + destruct (into_inner _ _ E Ia) as [(_ & E2)|(-> & _)]; [|apply inner_names in Iz; tauto]. apply rt_cases in R as [->|R]; [exact (no_loop_edge _ _ _ KF E2)|exact (lo_chain _ LO _ _ KF _ _ R E2)].
    + destruct (into_inner _ _ E Ia) as [(Q & _)|(-> & _)]; [contradiction|]. exact (no_way_in a (or_introl Ia) C2).
  - destruct (inner_dec z) as [Iz|Nz].
    + destruct (chain_enters a z Na C2) as [Q|Q]; [contradiction|]. refine (no_way_in a (or_intror _) Q). apply edge_iff in E as [-> _ _| -> _|bf _ _ Q2|bf _ _ E|y0 _ E _]; [apply inner_names in Iz; tauto|apply inner_names in Iz; tauto|exact Q2| |].
      * apply (edge_in _ _ _ CFF) in E. elim Na. apply E.
      * apply not_inner in E. tauto.
    + pose proof (chain_rt a z C2) as R. assert (E2 : edge g (pr z) (pr a)).
      { apply edge_iff in E as [-> E _| -> ->|bf LF _ _|bf LF _ _|y0 N E ->].
        - destruct (not_inner _ _ E) as (_ & A1 & _ & _ & A2 & A3). rewrite pr_second, (pr_other a) by assumption. exact E.
        - elim Na. exact start_inner.
        - elim Nz. exists bf. exact LF.
        - elim Nz. exists bf. exact LF.
        - destruct (not_inner _ _ E) as (A0 & A1 & A4 & A5 & A2 & A3). rewrite (pr_other z) by assumption. destruct (string_dec y0 id) as [->|Ny]; [rewrite subst_eq, pr_first; exact E|]. rewrite subst_ne by exact Ny. rewrite pr_other by assumption. exact E. }
      apply rt_cases in R as [Q|R]; [rewrite Q in E2; exact (no_loop_edge _ _ _ KG E2)|exact (lo_chain _ LO _ _ KG _ _ R E2)].
Qed.
(** Running out. *)
Lemma stuck_rest : exits = [] -> post = [] /\ successors b = [].
Proof.
  intros E. destruct (ca_stuck _ CA c id b pre call post k) as (PE & SE & _); [rewrite block_c; exact LB|apply b_split|rewrite call_op; apply (oc_function _ _ _ _ _ _ _ OC)|exact E|]. auto.
Qed.
Lemma f_listed : In (li_op call) (map fst (ob_functions ob)). Proof. rewrite call_op. eapply lookup_In_key. apply (oc_function _ _ _ _ _ _ _ OC). Qed.
Lemma f_returns : exits <> [] -> return_name ob (Some (li_op call)) <> None.
Proof. intros N. rewrite call_op. cbn. rewrite (oc_function _ _ _ _ _ _ _ OC). now destruct exits. Qed.
Lemma ends_call : post = [] -> cb_instrs b = pre ++ [call]. Proof. intros E. rewrite b_split at 1. rewrite E. reflexivity. Qed.
Lemma second_empty : cb_instrs (rename_block ρ (after_call id b pos ff phis)) = [] -> phis = [] /\ post = [].
Proof. rewrite second_instrs. intros E. apply app_eq_nil in E as (E1 & E2). split; [exact E1|]. now apply map_eq_nil in E2. Qed.
Lemma not_exit z bf : lookup z (cl_blocks F) = Some bf -> mem z exits = false -> cb_type (final id call ff ret start z bf) = cb_type bf.
Proof.
  intros L Mz. destruct (fin_rest z bf) as (T & _). rewrite T. destruct (String.eqb_spec (cb_type bf) "FunctionReturn") as [Q|_]; [|reflexivity]. apply (exits_types z bf L) in Q. congruence.
Qed.
Lemma out_back z : runs_out g' z -> (z = second_id id -> exits = []) /\ z <> first_id id /\ (in_fun z -> z <> start /\ forall y, ~ edge F y z) /\ (forall blk, lookup z (cl_blocks g) = Some blk -> runs_out g z).
Proof.
  induction 1 as [z bz L EI T|z bz y L EI E _ IH].
  - destruct (block_cases z bz L) as [(-> & ->)|[(-> & ->)|[(bf & LF & ->)|(blk & N & LX & ->)]]].
    + apply second_empty in EI as (_ & PE). split; [|split; [intros Q; symmetry in Q; exact (halves_ne id Q)|split; [intros I; apply inner_names in I; tauto|intros blk Q; apply in_g in Q; tauto]]].
      intros _. pose proof (lo_exit _ LO c g id b pre call KG LB T (ends_call PE) f_listed) as Q. assert (D : exits = [] \/ exits <> []) by (destruct exits; [now left|right; discriminate]). destruct D as [D|D]; [exact D|]. now apply f_returns in D.
    + exfalso. destruct T; discriminate.
    + destruct (in_f z bf LF) as (A1 & A2 & A3 & A4). split; [contradiction|]. split; [exact A1|]. split; [|congruence]. intros _. rewrite (fin_succ z bf LF) in T. rewrite fin_instrs in EI. destruct (mem z exits) eqn:Mz.
      * exfalso. destruct T as [T|T]; [|discriminate]. destruct (fin_rest z bf) as (TY & _). rewrite TY in T. apply (exits_types z bf LF) in Mz. rewrite Mz in T. discriminate.
      * apply map_eq_nil in EI. rewrite (not_exit z bf LF Mz) in T. assert (SE : successors bf = []) by (destruct T as [T|T]; [now apply (lo_typed _ LO _ _ KF z bf LF)|exact T]).
        destruct (lo_ends _ LO f F z bf KF LF EI SE) as (Q1 & Q2). split; [intros ->; now apply Q1|exact Q2].
    + destruct (in_g z blk LX) as (A1 & A2 & A3). split; [contradiction|]. split; [exact A1|]. split; [intros (q & Q); congruence|]. intros _ _. change (map (rename_instr ρ) (cb_instrs blk) = []) in EI. apply map_eq_nil in EI. rewrite edit_succ in T.
      change (cb_type (rename_block ρ (edit id blk))) with (cb_type blk) in T. eapply out_here; [exact LX|exact EI|]. destruct T as [T|T]; [now left|right; now apply map_eq_nil in T].
  - destruct IH as (IH1 & IH2 & IH3 & IH4). apply edge_iff in E as [-> E N| -> ->|bf LF Mx ->|bf LF Mx E|y0 N E ->].
    + exfalso. rewrite second_lookup in L. injection L as <-. apply second_empty in EI as (_ & PE). destruct (edge_in _ _ _ CG E) as (_ & by_ & Ly). apply IH4 in Ly.
      assert (D : exits = [] \/ exits <> []) by (destruct exits; [now left|right; discriminate]). destruct D as [D|D]; [apply stuck_rest in D as (_ & SE); apply (edge_succ _ _ _ _ LB) in E; rewrite SE in E; destruct E|].
      exact (lo_calls _ LO c g id b pre call y KG LB (ends_call PE) f_listed (f_returns D) E Ly).
    + exfalso. now apply (IH3 start_inner).
    + exfalso. apply mem_In in Mx. rewrite (IH1 eq_refl) in Mx. destruct Mx.
    + exfalso. apply (IH3 (proj2 (edge_in _ _ _ CFF E))) in E. exact E.
    + destruct (edge_in _ _ _ CG E) as ((bx & Lx) & by_ & Ly). destruct (in_g z bx Lx) as (A1 & A2 & A3). split; [contradiction|]. split; [exact A1|]. split; [intros (q & Q); congruence|]. intros _ _.
      destruct (string_dec y0 id) as [->|Ny]; [rewrite subst_eq in IH2; contradiction|]. rewrite subst_ne in * by exact Ny. rewrite (other_lookup z bx N Lx) in L. injection L as <-. change (map (rename_instr ρ) (cb_instrs bx) = []) in EI. apply map_eq_nil in EI. eapply out_later; eauto.
Qed.
(** Calls at the end of blocks. *)
Lemma listed' h : In h (map fst (ob_functions ob')) -> In h (map fst (ob_functions ob)) /\ h <> f.
Proof. rewrite FNS, filter_In. destruct (String.eqb_spec h f); cbn; intuition congruence. Qed.
Lemma returning' h : h <> f -> return_name ob' (Some h) <> None -> return_name ob (Some h) <> None.
Proof.
  intros N. cbn. destruct (lookup h (ob_functions ob')) as [k'|] eqn:L; [|congruence]. destruct (functions' h k' L) as (_ & k0 & L0 & _ & KC & KN). rewrite L0. intros R.
  destruct (component_cases (Some h)) as [Q|[Q|(Q & _)]]; [|congruence|].
  - destruct (KC (eq_sym Q)) as (E1 & E2). rewrite E1 in R. rewrite E2. destruct (cl_return g) eqn:Z; [|discriminate]. apply returns' in Z. rewrite Z in R. contradiction.
  - rewrite <- (KN (fun X => Q (eq_sym X))). exact R.
Qed.
Lemma last_at z bz p' i' : lookup z (cl_blocks g') = Some bz -> cb_instrs bz = p' ++ [i'] -> In (li_op i') (map fst (ob_functions ob')) ->
  (exists p i, z = second_id id /\ cb_instrs b = p ++ [i] /\ li_op i' = li_op i) \/ z = first_id id
  \/ (exists bf, lookup z (cl_blocks F) = Some bf /\ (mem z exits = true \/ exists p i, cb_instrs bf = p ++ [i] /\ li_op i' = li_op i))
  \/ (exists blk p i, z <> id /\ lookup z (cl_blocks g) = Some blk /\ cb_instrs blk = p ++ [i] /\ li_op i' = li_op i).
Proof.
  intros L E I. assert (NP : li_op i' <> "PhiFunction") by (apply listed' in I as (I & _); apply (oo_reserved _ OO) in I; intros Q; apply I; rewrite Q; cbn; tauto).
  destruct (at_inv z bz p' i' [] L E NP) as [(p & i & q & -> & _ & EB & -> & Q)|[(p & i & q & -> & _)|[(bf & p & i & q & LF & -> & EB & -> & _ & Q)|(blk & p & i & q & N & LX & -> & EB & -> & Q)]]].
  - left. symmetry in Q. apply map_eq_nil in Q. subst q. apply split_post in EB. eexists _, i. split; [reflexivity|]. split; [exact EB|reflexivity].
  - right. now left.
  - right. right. left. exists bf. split; [exact LF|]. destruct Q as [(_ & Q)|(Q & _)]; [right; symmetry in Q; apply map_eq_nil in Q; subst q; eauto|now left].
  - right. right. right. symmetry in Q. apply map_eq_nil in Q. subst q. exists blk, p, i. auto.
Qed.
Lemma keep_conds x bx : lookup x (cl_blocks g') = Some bx -> cb_cond bx <> None -> length (successors bx) = 2.
Proof.
  intros L. destruct (block_cases x bx L) as [(-> & ->)|[(-> & ->)|[(bf & LF & ->)|(blk & N & LX & ->)]]].
  - change (option_map (rename_var ρ) (cb_cond b) <> None -> length (successors b) = 2). intros C. apply (lo_conds _ LO _ _ _ _ KG LB). intros Q. now rewrite Q in C.
  - intros Q. now elim Q.
  - destruct (fin_rest x bf) as (_ & C & _). rewrite C, (fin_succ x bf LF). destruct (mem x exits) eqn:Mx.
    + destruct (exit_instrs x bf LF Mx) as (_ & _ & _ & _ & _ & _ & Q). rewrite Q. intros X. now elim X.
    + intros Q. apply (lo_conds _ LO _ _ _ _ KF LF). intros X. now rewrite X in Q.
  - rewrite edit_succ, map_length. change (option_map (rename_var ρ) (cb_cond blk) <> None -> length (successors blk) = 2). intros Q. apply (lo_conds _ LO _ _ _ _ KG LX). intros X. now rewrite X in Q.
Qed.
Lemma keep_typed : typed_exits g'.
Proof.
  intros x bx L. destruct (block_cases x bx L) as [(-> & ->)|[(-> & ->)|[(bf & LF & ->)|(blk & N & LX & ->)]]].
  - exact (lo_typed _ LO _ _ KG id b LB).
  - split; discriminate.
  - rewrite (fin_succ x bf LF). destruct (fin_rest x bf) as (T & _ & FT & JT). rewrite T, FT, JT. destruct (mem x exits) eqn:Mx.
    + apply (exits_types x bf LF) in Mx. rewrite Mx. cbn. split; discriminate.
    + destruct (lo_typed _ LO _ _ KF x bf LF) as (T1 & T2). destruct (String.eqb (cb_type bf) "FunctionReturn"); [split; discriminate|auto].
  - destruct (lo_typed _ LO _ _ KG x blk LX) as (T1 & T2). rewrite edit_succ. split; [intros T; now rewrite (T1 T)|]. intros T. destruct (T2 T) as (Q1 & Q2). clear -Q1 Q2. destruct blk as [? ? [] [] ? ? ? ?]; cbn in *; split; congruence.
Qed.
Lemma phis_kept_inner x bf i' : In i' (cb_instrs (final id call ff ret start x bf)) -> exists i, In i (cb_instrs bf) /\ li_op i' = li_op i.
Proof.
  rewrite fin_instrs. intros I. assert (Q : In i' (map τ (cb_instrs bf))).
  { destruct (mem x exits); [|exact I]. revert I. generalize (map τ (cb_instrs bf)). clear. intros l I. destruct l as [|a l] using rev_ind; [exact I|]. rewrite removelast_last in I. apply in_app_iff. now left. }
  apply in_map_iff in Q as (i & <- & Q). exists i. split; [exact Q|reflexivity].
Qed.
Lemma phis_kept_inner' x bf i' : In i' (cb_instrs (final id call ff ret start x bf)) -> exists i, In i (cb_instrs bf) /\ i' = rename_instr ρ (rename_instr σ i).
Proof.
  rewrite fin_instrs. intros I. assert (Q : In i' (map τ (cb_instrs bf))).
  { destruct (mem x exits); [|exact I]. revert I. generalize (map τ (cb_instrs bf)). clear. intros l I. destruct l as [|a l] using rev_ind; [exact I|]. rewrite removelast_last in I. apply in_app_iff. now left. }
  apply in_map_iff in Q as (i & <- & Q). exists i. split; [exact Q|reflexivity].
Qed.
Lemma keep_joins : joins_have_phis g'.
Proof.
  intros x bx L LE i' I. destruct (block_cases x bx L) as [(-> & ->)|[(-> & ->)|[(bf & LF & ->)|(blk & N & LX & ->)]]].
  - change (length exits <= 1) in LE. rewrite second_instrs in I. apply in_app_iff in I as [I|I]; [apply phi_facts in I; lia|]. apply in_map_iff in I as (i & <- & I). apply (post_no_phi i). now right.
  - change (length (cb_comes_from b) <= 1) in LE. change (In i' (map (rename_instr ρ) pre)) in I. apply in_map_iff in I as (i & <- & I). apply (lo_joins _ LO _ _ KG id b LB LE i). rewrite b_split. apply in_app_iff. now left.
  - apply phis_kept_inner in I as (i & I & ->). apply (lo_joins _ LO _ _ KF x bf LF); [|exact I].
    assert (Q : cb_comes_from (final id call ff ret start x bf) = cb_comes_from (linked id call ff start x bf)) by (unfold final; cbn [f_blocks]; now destruct (mem x exits)). rewrite Q, linked_from in LE.
    destruct (String.eqb x start); [rewrite app_length in LE; cbn in LE; lia|exact LE].
  - change (In i' (map (rename_instr ρ) (cb_instrs blk))) in I. apply in_map_iff in I as (i & <- & I). refine (lo_joins _ LO _ _ KG x blk LX _ i I).
    change (length (cb_comes_from (rename_block ρ (edit id blk)))) with (length (map (subst id (second_id id)) (cb_comes_from blk))) in LE. now rewrite map_length in LE.
Qed.
Lemma other_component c0 g0 : c0 <> c -> c0 <> Some f -> JumpSpec.component ob c0 g0 -> JumpSpec.component ob' c0 g0. Proof. intros. apply KO. auto. Qed.
Lemma reads_other c0 x : c0 <> c -> c0 <> Some f -> reads_at ob' c0 x -> reads_at ob c0 x.
Proof. intros N1 N2 (z & blk & B & H). rewrite B2 in B by assumption. exists z, blk. auto. Qed.
Lemma keep_layout : laid_out ob'.
Proof.
  constructor.
  - intros c0 g0 x bx K0 L. apply KO in K0 as [(-> & ->)|(N1 & N2 & K0)]; [now apply (keep_conds x)|now apply (lo_conds _ LO _ _ _ _ K0 L)].
  - intros c0 g0 K0. apply KO in K0 as [(-> & ->)|(N1 & N2 & K0)]; [exact keep_start_first|exact (lo_start _ LO _ _ K0)].
  - intros c0 g0 K0. apply KO in K0 as [(-> & ->)|(N1 & N2 & K0)]; [exact keep_chain|exact (lo_chain _ LO _ _ K0)].
  - intros c0 g0 K0. apply KO in K0 as [(-> & ->)|(N1 & N2 & K0)]; [exact keep_typed|exact (lo_typed _ LO _ _ K0)].
  - intros c0 g0 K0. apply KO in K0 as [(-> & ->)|(N1 & N2 & K0)]; [exact keep_joins|exact (lo_joins _ LO _ _ K0)].
  - intros c0 g0 x bx i' K0 L I LV. apply KO in K0 as [(-> & ->)|(N1 & N2 & K0)]; [|exact (lo_leaving _ LO _ _ _ _ _ K0 L I LV)].
    assert (NP : li_op i' <> "PhiFunction") by (intros Q; rewrite Q in LV; cbn in LV; intuition discriminate). destruct (List.in_split _ _ I) as (p' & q' & E).
    destruct (at_inv x bx p' i' q' L E NP) as [(p & i & q & -> & -> & EB & -> & _)|[(p & i & q & -> & -> & EB & -> & _)|[(bf & p & i & q & LF & -> & EB & -> & _ & Q)|(blk & p & i & q & N & LX & -> & EB & -> & _)]]].
    + apply split_post in EB. apply (lo_leaving _ LO _ _ _ _ i KG LB); [rewrite EB; apply in_app_iff; right; now left|exact LV].
    + exfalso. apply split_pre in EB. destruct (oo_leaving _ OO _ _ _ _ _ _ _ KG LB EB LV) as (Q & _). now destruct q.
    + destruct Q as [(Mx & _)|(Mx & Q)]; [|exfalso; destruct (oo_leaving _ OO _ _ _ _ _ _ _ KF LF EB LV); contradiction]. rewrite (fin_succ x bf LF), Mx. apply (lo_leaving _ LO _ _ _ _ i KF LF); [rewrite EB; apply in_app_iff; right; now left|exact LV].
    + rewrite edit_succ. rewrite (lo_leaving _ LO _ _ _ _ i KG LX); [reflexivity|rewrite EB; apply in_app_iff; right; now left|exact LV].
  - intros c0 g0 x bx p' i' y K0 L E I R Ex. assert (I0 := I). apply listed' in I0 as (I0 & NF). pose proof (returning' _ NF R) as R0.
    apply KO in K0 as [(-> & ->)|(N1 & N2 & K0)]; [|exact (lo_calls _ LO _ _ _ _ _ _ _ K0 L E I0 R0 Ex)]. intros O. apply out_back in O as (O1 & O2 & O3 & O4).
    apply edge_iff in Ex as [-> Ex N| -> ->|bf LF Mx ->|bf LF Mx Ex|y0 N Ex ->].
    + destruct (last_at _ _ _ _ L E I) as [(p & i & _ & EB & EO)|[Q|[(bf & LF & _)|(blk & p & i & _ & LX & _)]]]; [|symmetry in Q; destruct (halves_ne id Q)|apply in_f in LF; tauto|apply in_g in LX; tauto].
      rewrite EO in *. destruct (edge_in _ _ _ CG Ex) as (_ & by_ & Ly). exact (lo_calls _ LO _ _ _ _ _ _ _ KG LB EB I0 R0 Ex (O4 _ Ly)).
    + now apply (O3 start_inner).
    + apply mem_In in Mx. rewrite (O1 eq_refl) in Mx. destruct Mx.
    + exact (proj2 (O3 (proj2 (edge_in _ _ _ CFF Ex))) _ Ex).
    + destruct (edge_in _ _ _ CG Ex) as ((b0 & L0) & by_ & Ly). destruct (in_g x b0 L0) as (A1 & A2 & A3).
      destruct (last_at _ _ _ _ L E I) as [(p & i & Q & _)|[Q|[(bf & LF & _)|(blk & p & i & _ & LX & EB & EO)]]]; [contradiction|contradiction|congruence|].
      destruct (string_dec y0 id) as [->|Ny]; [rewrite subst_eq in O2; now apply O2|]. rewrite subst_ne in * by exact Ny. rewrite EO in *. exact (lo_calls _ LO _ _ _ _ _ _ _ KG LX EB I0 R0 Ex (O4 _ Ly)).
  - intros c0 g0 x bx p' i' K0 L T E I. assert (I0 := I). apply listed' in I0 as (I0 & NF). assert (D : return_name ob' (Some (li_op i')) = None \/ return_name ob' (Some (li_op i')) <> None) by (destruct (return_name ob' (Some (li_op i'))); [right; discriminate|now left]).
    destruct D as [D|D]; [exact D|]. exfalso. apply (returning' _ NF) in D. apply D. apply KO in K0 as [(-> & ->)|(N1 & N2 & K0)]; [|exact (lo_exit _ LO _ _ _ _ _ _ K0 L T E I0)].
    destruct (last_at _ _ _ _ L E I) as [(p & i & -> & EB & EO)|[ -> |[(bf & LF & Q)|(blk & p & i & N & LX & EB & EO)]]].
    + rewrite second_lookup in L. injection L as <-. rewrite EO in *. exact (lo_exit _ LO _ _ _ _ _ _ KG LB T EB I0).
    + rewrite first_lookup in L. injection L as <-. destruct T; discriminate.
    + rewrite (inner_lookup x bf LF) in L. injection L as <-. rewrite (fin_succ x bf LF) in T. destruct (mem x exits) eqn:Mx.
      * destruct T as [T|T]; [|discriminate]. destruct (fin_rest x bf) as (TY & _). rewrite TY in T. apply (exits_types x bf LF) in Mx. rewrite Mx in T. discriminate.
      * destruct Q as [Q|(p & i & EB & EO)]; [discriminate|]. rewrite (not_exit x bf LF Mx) in T. rewrite EO in *. exact (lo_exit _ LO _ _ _ _ _ _ KF LF T EB I0).
    + rewrite (other_lookup x blk N LX) in L. injection L as <-. rewrite edit_succ in T. rewrite EO in *. refine (lo_exit _ LO _ _ _ _ _ _ KG LX _ EB I0). destruct T as [T|T]; [now left|right; now apply map_eq_nil in T].
  - intros h g0 x bx K0 L EI ES. apply KO in K0 as [(EC & ->)|(N1 & N2 & K0)]; [|exact (lo_ends _ LO _ _ _ _ K0 L EI ES)]. assert (KH : JumpSpec.component ob (Some h) g) by (rewrite EC; exact KG).
    destruct (block_cases x bx L) as [(-> & ->)|[(-> & ->)|[(bf & LF & ->)|(blk & N & LX & ->)]]].
    + apply second_empty in EI as (_ & PE). assert (EX : exits = []).
      { pose proof (lo_exit _ LO c g id b pre call KG LB (or_intror ES) (ends_call PE) f_listed) as Q. assert (D : exits = [] \/ exits <> []) by (destruct exits; [now left|right; discriminate]). destruct D as [D|D]; [exact D|]. now apply f_returns in D. }
      split; [intros Q; apply start' in Q as [(Q & _)|(_ & Q)]; [symmetry in Q; exact (halves_ne id Q)|]; apply start_outside in Q as (q & Q); apply in_g in Q; tauto|].
      intros y Q. apply into_second in Q as (_ & Q). apply mem_In in Q. rewrite EX in Q. destruct Q.
    + discriminate.
    + rewrite (fin_succ x bf LF) in ES. rewrite fin_instrs in EI. destruct (mem x exits) eqn:Mx; [discriminate|]. apply map_eq_nil in EI. destruct (lo_ends _ LO f F x bf KF LF EI ES) as (Q1 & Q2). destruct (in_f x bf LF) as (A1 & A2 & A3 & A4). split.
      * intros Q. apply start' in Q as [(Q & _)|(_ & Q)]; [contradiction|]. apply start_outside in Q as (q & Q). congruence.
      * intros y Q. apply into_inner in Q as [(_ & Q)|(_ & ->)]; [exact (Q2 _ Q)|now apply Q1|exists bf; exact LF].
    + change (map (rename_instr ρ) (cb_instrs blk) = []) in EI. apply map_eq_nil in EI. rewrite edit_succ in ES. apply map_eq_nil in ES. destruct (lo_ends _ LO h g x blk KH LX EI ES) as (Q1 & Q2). destruct (in_g x blk LX) as (A1 & A2 & A3). split.
      * intros Q. apply start' in Q as [(Q & _)|(_ & Q)]; contradiction.
      * intros y Q. apply edge_iff in Q as [_ Q _|_ Q|bf _ _ Q|bf _ _ Q|y0 _ Q E].
        -- exact (Q2 _ Q).
        -- pose proof start_inner as (q & I). congruence.
        -- contradiction.
        -- apply (edge_in _ _ _ CFF) in Q as (_ & q & I). congruence.
        -- destruct (string_dec y0 id) as [->|Ny]; [rewrite subst_eq in E; contradiction|]. rewrite subst_ne in E by exact Ny. subst y0. exact (Q2 _ Q).
  - intros c0 x R P. destruct (component_cases c0) as [->|[->|(N1 & N2)]]; [|destruct R as (z & blk & B & _); rewrite no_block in B; discriminate|apply (lo_literals _ LO c0); [now apply reads_other|exact P]].
    assert (FT : forall t, reads_at ob (Some f) t -> x = rename_var σ t -> DepsModel.py_int16 x <> None).
    { intros t Rt ->. destruct (in_dec string_dec t (fn_args k)) as [I|I]; [apply (lo_literals _ LO c); [apply ins_read; now apply σ_actual|exact P]|]. rewrite σ_other in * by exact I. now apply (lo_literals _ LO (Some f)). }
    apply read' in R as [(w & Rw & E)|(t & Rt & E)]; [|exact (FT t Rt E)]. destruct (in_dec string_dec w outs) as [I|I]; [|rewrite ρ_other in E by exact I; subst w; now apply (lo_literals _ LO c)].
    destruct (returned_out w I) as [(_ & Q)|[(_ & Q)|(e & t & EX & T & Q)]]; [rewrite Q in E; subst w; now apply (lo_literals _ LO c)|rewrite Q in E; subst w; now apply (lo_literals _ LO c)|].
    apply (FT t); [apply (return_read e); [rewrite EX; now left|exact T]|congruence].
  - intros c0 g0 x bx i' K0 L I O. apply KO in K0 as [(-> & ->)|(N1 & N2 & K0)]; [|exact (lo_phis _ LO _ _ _ _ _ K0 L I O)].
    destruct (comes_from x bx i' L I) as [p _ P|y blk i Ly Iy _|bf i Ly Iy _].
    + apply phi_facts in P as (_ & _ & n & y & _ & E & _). eauto.
    + destruct (lo_phis _ LO _ _ _ _ _ KG Ly Iy O) as (o & E). exists (rename_var ρ o). cbn. now rewrite E.
    + destruct (lo_phis _ LO _ _ _ _ _ KF Ly Iy O) as (o & E). exists (rename_var ρ (rename_var σ o)). cbn. now rewrite E.
  - intros c0 g0 x bx i' K0 L I O. apply KO in K0 as [(-> & ->)|(N1 & N2 & K0)]; [|exact (lo_arity _ LO _ _ _ _ _ K0 L I O)].
    destruct (block_cases x bx L) as [(-> & ->)|[(-> & ->)|[(bf & LF & ->)|(blk & N & LX & ->)]]].
    + rewrite second_instrs in I. apply in_app_iff in I as [I|I].
      * apply phi_facts in I as (LE & _ & n & y & _ & _ & FA). assert (FL : length exits = length (li_ins i')) by (clear - FA; induction FA; cbn; congruence). rewrite <- FL. unfold after_call. cbn [f_blocks]. destruct (Nat.ltb_spec 1 (length exits)); [reflexivity|lia].
      * apply in_map_iff in I as (i & <- & I). exfalso. apply (post_no_phi i); [now right|exact O].
    + change (In i' (map (rename_instr ρ) pre)) in I. apply in_map_iff in I as (i & <- & I). cbn [rename_instr li_ins]. unfold rename_var_list. rewrite map_length. refine (lo_arity _ LO _ _ _ _ i KG LB _ O). rewrite b_split. apply in_app_iff. now left.
    + apply phis_kept_inner' in I as (i & I & ->). cbn [rename_instr li_ins]. unfold rename_var_list. rewrite !map_length, fin_entries. exact (lo_arity _ LO _ _ _ _ i KF LF I O).
    + change (In i' (map (rename_instr ρ) (cb_instrs blk))) in I. apply in_map_iff in I as (i & <- & I). cbn [rename_instr li_ins]. unfold rename_var_list. rewrite map_length. rewrite (lo_arity _ LO _ _ _ _ i KG LX I O).
      change (cb_entries (rename_block ρ (edit id blk))) with (map (subst id (second_id id)) (cb_entries blk)). now rewrite map_length.
  - intros c0 g0 x bx i' K0 L I. apply KO in K0 as [(-> & ->)|(N1 & N2 & K0)]; [|exact (lo_invalid _ LO _ _ _ _ _ K0 L I)].
    destruct (comes_from x bx i' L I) as [p _ P|y blk i Ly Iy _|bf i Ly Iy _].
    + apply phi_facts in P as (_ & -> & _). discriminate.
    + exact (lo_invalid _ LO _ _ _ _ _ KG Ly Iy).
    + exact (lo_invalid _ LO _ _ _ _ _ KF Ly Iy).
Qed.
End Layout.
Lemma keeps_all : object_ok ob' /\ ssa ob' /\ calls_ok ob' /\ ((ObjLayoutSpec.laid_out ob -> ObjLayoutSpec.laid_out ob') /\ (forall c0 x, defines_at ob' c0 x -> exists c1, defines_at ob c1 x)) /\ (forall h, h <> f -> called_once ob h -> called_once ob' h)
  /\ (forall c0 z blk, ~ (c0 = c /\ z = id) -> c0 <> Some f -> block_at ob c0 z = Some blk -> exists blk', block_at ob' c0 z = Some blk' /\ plain_ops (cb_instrs blk') = plain_ops (cb_instrs blk))
  /\ exists b1 b2, block_at ob' c (first_id id) = Some b1 /\ block_at ob' c (second_id id) = Some b2 /\ plain_ops (cb_instrs b) = plain_ops (cb_instrs b1) ++ f :: plain_ops (cb_instrs b2)
    /\ pos = length (fst (phis_of (cb_instrs b))) + length (plain_ops (cb_instrs b1)).
Proof.
  split; [exact keep_object|]. split; [exact keep_ssa|]. split; [exact keep_calls|]. split; [split; [exact keep_layout|exact defined_before]|]. split; [exact once_kept|]. split; [exact ops_other|exact ops_split].
Qed.
End Inline.

(** ** Objects *)
Lemma lookup_pop {A} f q (l : list (string * A)) : q <> f -> lookup q (filter (fun fk => negb (String.eqb (fst fk) f)) l) = lookup q l.
Proof.
  intros N. induction l as [|[k v] l IH]; [reflexivity|]. cbn [filter fst]. destruct (String.eqb_spec k f) as [->|Nk]; cbn [negb lookup].
  - destruct (String.eqb_spec f q); [congruence|]. exact IH.
  - destruct (String.eqb_spec k q); [reflexivity|exact IH].
Qed.
Lemma lookup_put {A} (h : A -> A) p q (l : list (string * A)) : lookup q (map (fun fk => if String.eqb (fst fk) p then (fst fk, h (snd fk)) else fk) l) = option_map (fun k => if String.eqb p q then h k else k) (lookup q l).
Proof.
  induction l as [|[k v] l IH]; [reflexivity|]. cbn [map fst snd]. destruct (String.eqb_spec k p) as [->|Nk]; cbn [lookup].
  - destruct (String.eqb p q); [reflexivity|exact IH].
  - destruct (String.eqb_spec k q) as [->|N]; [|exact IH]. cbn. destruct (String.eqb_spec p q); [congruence|reflexivity].
Qed.
Lemma NoDup_flat_map_in {A B} (h : A -> list B) l x : NoDup (flat_map h l) -> In x l -> NoDup (h x).
Proof.
  induction l as [|y l IH]; intros N I; [destruct I|]. cbn in N. apply NoDup_parts in N as (N1 & _ & N2). destruct I as [->|I]; auto.
Qed.
Lemma lookup_In_pair {A} x (l : list (string * A)) v : lookup x l = Some v -> In (x, v) l.
Proof. induction l as [|[k u] l IH]; [discriminate|]. cbn. destruct (String.eqb_spec k x) as [->|]; [intros H; injection H as ->; now left|]. intros H. right. auto. Qed.
Definition returned_at (F : clist) (e : string) : list string := match lookup e (cl_blocks F) with Some be => li_ins (last (cb_instrs be) {| li_op := ""; li_ins := []; li_outs := []; li_lits := None |}) | None => [] end.

Section Object.
Variables (ob : cobject) (c : option string) (id : string) (pos : nat) (f : string) (k : JumpModel.cfun) (call : linstr) (g : clist) (b : cblock).
Hypothesis OO : object_ok ob.
Hypothesis SS : ssa ob.
Hypothesis OC : only_call ob c id pos f k call.
Hypothesis KG : JumpSpec.component ob c g.
Hypothesis LB : lookup id (cl_blocks g) = Some b.
Hypothesis NC : nth_error (cb_instrs b) pos = Some call.
Notation F := (fn_blocks k).
Notation ff := {| f_name := f; f_args := fn_args k; f_blocks := fn_blocks k |}.

Lemma can_inline : inlinable g id b pos call ff (returned_at F).
Proof.
  pose proof (oc_function _ _ _ _ _ _ _ OC) as LF. assert (KF : JumpSpec.component ob (Some f) F) by (exists k; auto).
  pose proof (oc_outside _ _ _ _ _ _ _ OC) as CF. assert (BC : forall x, block_at ob c x = lookup x (cl_blocks g)) by (intros x; unfold block_at, blocks_at; clear -KG; destruct c as [q|]; cbn in KG; [destruct KG as (kq & -> & <-); reflexivity|now rewrite KG]).
  assert (CO : li_op call = f) by (destruct (oc_here _ _ _ _ _ _ _ OC) as (blk & B & N & O); rewrite BC, LB in B; congruence).
  assert (IC : In call (cb_instrs b)) by (eapply nth_error_In; eauto).
  assert (BI : block_name ob c id) by (exists g; split; [exact KG|eapply lookup_In_key; eauto]).
  assert (FW : fs_word "f") by (intros ch [<-|[]]; now left). assert (SW : fs_word "s") by (intros ch [<-|[]]; now right). assert (EW : fs_word "") by (intros ch []).
  assert (NN : forall x : string, (x ++ "")%string = x) by (induction x as [|ch x IH]; [reflexivity|cbn; now rewrite IH]).
  assert (NE : forall (x : string) w, w <> ""%string -> x <> (x ++ w)%string) by (induction x as [|ch x IH]; intros w N Q; [cbn in Q; congruence|]; cbn in Q; injection Q as Q; exact (IH w N Q)).
  assert (OD : forall y, In y (li_outs call) -> defines_at ob c y) by (intros y I; right; exists id, b, call; rewrite BC; auto).
  assert (FD : forall x, In x (fn_args k) -> defines_at ob (Some f) x) by (intros x I; left; exists f, k; auto).
  assert (AP : forall x, defines_at ob c x -> defines_at ob (Some f) x -> False) by (intros x A B; apply CF; eapply (ssa_apart _ SS); eauto).
  assert (RD : forall c0 x, reads_at ob c0 x -> prefix "0x" x = true \/ defines_at ob c0 x) by (intros c0 x R; destruct (prefix "0x" x) eqn:P; [now left|right; now apply (ssa_scoped _ SS)]).
  assert (IR : forall x, In x (li_ins call) -> reads_at ob c x) by (intros x I; exists id, b; rewrite BC; split; [exact LB|left; eauto]).
  assert (EXI : forall e, In e (cl_return F) -> exists be p i, lookup e (cl_blocks F) = Some be /\ cb_instrs be = p ++ [i] /\ li_op i = "functionReturn" /\ returned_at F e = li_ins i /\ successors be = []).
  { intros e I. apply (c_return _ (oo_consistent _ OO _ _ KF)) in I as (be & L & T). destruct T as [T|[]]. symmetry in T. destruct (oo_exits _ OO _ _ _ _ KF L) as (_ & _ & X & _). destruct (X T) as (S & p & vs & E).
    exists be, p. eexists. split; [exact L|]. split; [exact E|]. split; [reflexivity|]. split; [|exact S]. unfold returned_at. rewrite L, E, last_last. reflexivity. }
  assert (RR : forall e t, In e (cl_return F) -> In t (returned_at F e) -> reads_at ob (Some f) t).
  { intros e t I J. destruct (EXI e I) as (be & p & i & L & E & O & R & _). exists e, be. unfold block_at, blocks_at. rewrite LF. cbn [option_map]. split; [exact L|]. left. exists i. split; [rewrite E; apply in_app_iff; right; now left|congruence]. }
  pose proof (ssa_once _ SS _ _ KG) as N1. apply NoDup_parts in N1 as (_ & _ & N1). pose proof (ssa_once _ SS _ _ KF) as N2. unfold arguments in N2. rewrite LF in N2. apply NoDup_parts in N2 as (N2 & _ & _).
  constructor; cbn [f_blocks f_args f_name].
  - exact (oo_consistent _ OO _ _ KG).
  - exact (oo_consistent _ OO _ _ KF).
  - destruct (oo_links _ OO _ _ _ _ KG LB) as (L1 & L2). constructor; auto.
    + intros I. destruct (oo_names _ OO c c id (first_id id) "f" BI) as (Q & _); [exists g; auto|exact FW|reflexivity|]. apply (NE id "f"); [discriminate|exact Q].
    + intros I. destruct (oo_names _ OO c c id (second_id id) "s" BI) as (Q & _); [exists g; auto|exact SW|reflexivity|]. apply (NE id "s"); [discriminate|exact Q].
  - exact NC.
  - rewrite CO. unfold startswith. clear. induction f as [|ch q IH]; [reflexivity|]. cbn. destruct (Ascii.ascii_dec ch ch); [exact IH|contradiction].
  - exact (oc_arguments _ _ _ _ _ _ _ OC).
  - exact N2.
  - intros x v I <-. assert (I2 := in_combine_r _ _ _ _ I). apply in_combine_l in I. apply in_rev in I2. apply FD in I. destruct (RD _ _ (IR _ I2)) as [P|D]; [|exact (AP _ D I)]. apply (ssa_names _ SS) in I. congruence.
  - intros y I. assert (BY : block_name ob (Some f) y) by (exists F; auto). split; [|split].
    + intros J. destruct (oo_names _ OO c (Some f) y y "") as (_ & Q); auto. exists g; auto.
    + intros ->. destruct (oo_names _ OO c (Some f) id (first_id id) "f" BI BY FW eq_refl) as (_ & Q). contradiction.
    + intros ->. destruct (oo_names _ OO c (Some f) id (second_id id) "s" BI BY SW eq_refl) as (_ & Q). contradiction.
  - apply (oc_exits _ _ _ _ _ _ _ OC).
  - intros e I. destruct (EXI e I) as (be & p & i & L & E & O & R & S). exists be, p. split; [exact L|]. split; [exists i; auto|]. split; [exact S|]. split; [eapply (proj2 (oc_exits _ _ _ _ _ _ _ OC)); eauto|].
    rewrite R. apply (oc_results _ _ _ _ _ _ _ OC e be); [unfold block_at, blocks_at; rewrite LF; exact L|rewrite E; apply in_app_iff; right; now left|exact O].
  - unfold results in N1. apply (NoDup_flat_map_in _ _ (id, b)) in N1; [|now apply lookup_In_pair]. cbn [snd] in N1. exact (NoDup_flat_map_in _ _ call N1 IC).
  - intros e E y v I <-. assert (I2 := in_combine_r _ _ _ _ I). apply in_combine_l in I. assert (D := OD y I). apply in_map_iff in I2 as (t & T1 & T2).
    assert (Rt : reads_at ob (Some f) t) by (apply (RR e); [rewrite E; now left|exact T2]). assert (NY := ssa_names _ SS _ _ D). unfold rename_var, startswith in T1.
    destruct (prefix "0x" t) eqn:P; [congruence|]. destruct (RD _ _ Rt) as [Q|Q]; [congruence|]. destruct (lookup t (combine (fn_args k) (rev (li_ins call)))) as [a|] eqn:LT.
    + subst a. apply lookup_In_pair, in_combine_r, in_rev in LT. exact (oc_fresh _ _ _ _ _ _ _ OC y I LT).
    + subst t. exact (AP _ D Q).
Qed.
Lemma inline_call_ok : exists ob', inline_call ob c id pos f = Ok ob' /\ carries_over ob ob'.
Proof.
  pose proof (oc_function _ _ _ _ _ _ _ OC) as LF. pose proof (oc_outside _ _ _ _ _ _ _ OC) as CF. pose proof can_inline as CI.
  assert (KF : JumpSpec.component ob (Some f) F) by (exists k; auto). destruct (c_start _ (oo_consistent _ OO _ _ KF)) as (start & ST & _).
  destruct (inline_blocks g id b pos call ff (returned_at F) start CI ST) as (g' & phis & E & _ & PH & LG & SG & _).
  exists (pop_function f (put_block_list ob c g')). split.
  - unfold inline_call. rewrite LF. cbn [of_option bind]. assert (GB : get_block_list ob c = Ok g) by (clear -KG; destruct c as [q|]; cbn in *; [destruct KG as (k0 & -> & <-); reflexivity|now rewrite KG]).
    rewrite GB. cbn [bind]. rewrite E. reflexivity.
  - assert (FNS : forall q, q <> f -> lookup q (ob_functions (pop_function f (put_block_list ob c g'))) = option_map (fun k0 => if opt_eqb c (Some q) then {| fn_args := fn_args k0; fn_blocks := g' |} else k0) (lookup q (ob_functions ob))).
    { intros q N. unfold pop_function. cbn [ob_functions]. rewrite lookup_pop by exact N. unfold put_block_list. destruct c as [p|]; cbn [ob_functions opt_eqb].
      - apply (lookup_put (fun k0 => {| fn_args := fn_args k0; fn_blocks := g' |})).
      - now destruct (lookup q (ob_functions ob)). }
    intros V W M BO w. eapply (inlined_carries ob _ c id pos f k call g g' b start phis (returned_at F)); eauto.
    + intros x. unfold block_at, blocks_at. destruct c as [p|] eqn:EC; [|reflexivity]. rewrite FNS by congruence. destruct KG as (k0 & -> & _). cbn [option_map opt_eqb]. now rewrite String.eqb_refl.
    + intros c0 x N1 N2. unfold block_at, blocks_at. destruct c0 as [q|].
      * rewrite FNS by congruence. rewrite opt_eqb_neq by congruence. now destruct (lookup q (ob_functions ob)).
      * destruct c as [p|]; [reflexivity|congruence].
    + destruct c as [p|]; reflexivity.
Qed.
Lemma inline_call_keeps : calls_ok ob -> exists ob', inline_call ob c id pos f = Ok ob' /\ carries_over ob ob' /\ map fst (ob_functions ob') = filter (fun h => negb (String.eqb h f)) (map fst (ob_functions ob))
  /\ object_ok ob' /\ ssa ob' /\ calls_ok ob' /\ ((ObjLayoutSpec.laid_out ob -> ObjLayoutSpec.laid_out ob') /\ (forall c0 x, defines_at ob' c0 x -> exists c1, defines_at ob c1 x)) /\ (forall h, h <> f -> called_once ob h -> called_once ob' h)
  /\ (forall c0 z blk, ~ (c0 = c /\ z = id) -> c0 <> Some f -> block_at ob c0 z = Some blk -> exists blk', block_at ob' c0 z = Some blk' /\ plain_ops (cb_instrs blk') = plain_ops (cb_instrs blk))
  /\ exists b1 b2, block_at ob' c (first_id id) = Some b1 /\ block_at ob' c (second_id id) = Some b2 /\ plain_ops (cb_instrs b) = plain_ops (cb_instrs b1) ++ f :: plain_ops (cb_instrs b2)
    /\ pos = length (fst (phis_of (cb_instrs b))) + length (plain_ops (cb_instrs b1)).
Proof.
  intros CA. destruct inline_call_ok as (ob' & IC & CO). exists ob'. split; [exact IC|]. split; [exact CO|].
  pose proof (oc_function _ _ _ _ _ _ _ OC) as LF. pose proof (oc_outside _ _ _ _ _ _ _ OC) as CF. pose proof can_inline as CI.
  assert (KF : JumpSpec.component ob (Some f) F) by (exists k; auto). destruct (c_start _ (oo_consistent _ OO _ _ KF)) as (start & ST & _).
  destruct (inline_blocks g id b pos call ff (returned_at F) start CI ST) as (g' & phis & E & ND & PH & LG & SG & TG & RG).
  assert (EO : ob' = pop_function f (put_block_list ob c g')).
  { unfold inline_call in IC. rewrite LF in IC. cbn [of_option bind] in IC. assert (GB : get_block_list ob c = Ok g) by (clear -KG; destruct c as [q|]; cbn in *; [destruct KG as (k0 & -> & <-); reflexivity|now rewrite KG]).
    rewrite GB in IC. cbn [bind] in IC. rewrite E in IC. cbn [bind] in IC. congruence. }
  assert (FNS : forall q, q <> f -> lookup q (ob_functions ob') = option_map (fun k0 => if opt_eqb c (Some q) then {| fn_args := fn_args k0; fn_blocks := g' |} else k0) (lookup q (ob_functions ob))).
  { intros q N. subst ob'. unfold pop_function. cbn [ob_functions]. rewrite lookup_pop by exact N. unfold put_block_list. destruct c as [p|]; cbn [ob_functions opt_eqb].
    - apply (lookup_put (fun k0 => {| fn_args := fn_args k0; fn_blocks := g' |})).
    - now destruct (lookup q (ob_functions ob)). }
  assert (FL : map fst (ob_functions ob') = filter (fun h => negb (String.eqb h f)) (map fst (ob_functions ob))).
  { subst ob'. unfold pop_function. cbn [ob_functions]. assert (MF : forall l : list (string * JumpModel.cfun), map fst (filter (fun fk => negb (String.eqb (fst fk) f)) l) = filter (fun h => negb (String.eqb h f)) (map fst l)).
    { induction l as [|[q kq] l IH]; [reflexivity|]. cbn [filter map fst]. destruct (negb (String.eqb q f)); cbn [map fst]; now rewrite IH. }
    rewrite MF. f_equal. unfold put_block_list. destruct c as [p|]; [|reflexivity]. cbn [ob_functions]. rewrite map_map. apply map_ext. intros [q kq]. cbn [fst]. now destruct (String.eqb q p). }
  split; [exact FL|]. assert (GONE : lookup f (ob_functions ob') = None).
  { apply lookup_None. rewrite FL. intros I. apply filter_In in I as (_ & I). rewrite String.eqb_refl in I. discriminate. }
  assert (OM : ob_main ob' = if opt_eqb c None then g' else ob_main ob) by (subst ob'; clear; destruct c; reflexivity).
  assert (BB1 : forall x, block_at ob' c x = lookup x (cl_blocks g')).
  { intros x. unfold block_at, blocks_at. destruct c as [p|] eqn:EC; [|now rewrite OM]. rewrite FNS by congruence. destruct KG as (k0 & -> & _). cbn [option_map opt_eqb]. now rewrite String.eqb_refl. }
  assert (BB2 : forall c0 x, c0 <> c -> c0 <> Some f -> block_at ob' c0 x = block_at ob c0 x).
  { intros c0 x N1 N2. unfold block_at, blocks_at. destruct c0 as [q|].
    - rewrite FNS by congruence. rewrite opt_eqb_neq by congruence. now destruct (lookup q (ob_functions ob)).
    - rewrite OM. rewrite opt_eqb_neq by congruence. reflexivity. }
  assert (KO : forall c0 g0, JumpSpec.component ob' c0 g0 <-> (c0 = c /\ g0 = g') \/ (c0 <> c /\ c0 <> Some f /\ JumpSpec.component ob c0 g0)).
  { intros c0 g0. destruct c0 as [q|]; cbn [JumpSpec.component].
    - destruct (string_dec q f) as [->|N]; [split; [intros (k0 & Q & _); congruence|intros [(Q & _)|(_ & Q & _)]; congruence]|]. rewrite FNS by exact N. destruct (opt_eqb c (Some q)) eqn:DC.
      + apply opt_eqb_eq in DC. pose proof KG as KG0. rewrite DC in KG0. destruct KG0 as (k0 & -> & _). cbn [option_map]. split; [intros (k1 & Q & <-); left; split; [now symmetry|now injection Q as <-]|]. intros [(_ & ->)|(Q & _)]; [eauto|congruence].
      + assert (NCq : Some q <> c) by (intros Q; rewrite <- Q, opt_eqb_refl in DC; discriminate). split.
        * intros (k1 & Q & <-). right. split; [exact NCq|]. split; [congruence|]. destruct (lookup q (ob_functions ob)) as [k0|]; [|discriminate]. cbn [option_map] in Q. injection Q as <-. eauto.
        * intros [(Q & _)|(_ & _ & k0 & -> & <-)]; [congruence|]. cbn [option_map]. eauto.
    - rewrite OM. destruct (opt_eqb c None) eqn:DC.
      + apply opt_eqb_eq in DC. split; [intros <-; left; split; [now symmetry|reflexivity]|]. intros [(_ & ->)|(Q & _)]; [reflexivity|congruence].
      + assert (NCq : None <> c) by (intros Q; rewrite <- Q in DC; discriminate). split; [intros <-; right; split; [exact NCq|]; split; [discriminate|reflexivity]|]. intros [(Q & _)|(_ & _ & Q)]; [congruence|exact Q]. }
  assert (CG' : consistent g') by (eapply InlineWalks.inline_consistent; eauto).
  assert (NR : NoDup (cl_return g')).
  { eapply inline_return_once; [exact E|exact (proj1 (ca_exits _ CA _ _ KG))|]. intros I. apply (c_return _ (oo_consistent _ OO _ _ KG)) in I as (bx & L & _). apply lookup_In_key in L. exact (sp_second _ _ _ (in_split _ _ _ _ _ _ _ CI) L). }
  eapply (keeps_all ob ob' c id pos f k call g g' b start phis (returned_at F)); eauto.
  rewrite OM. clear. now destruct (opt_eqb c None).
Qed.
End Object.
