(** The traversal does not run out of steps, and only fails with the assertion
    on blocks that dominate their brother. *)
From Verif Require Import Base UtilModel UtilProps LevelProps LiveModel CfgModel CfgProps LayoutModel LayoutProps UnifyModel UnifyProps LayoutGenModel LayoutGenSpec LayoutGenUnify LayoutGenProofs.
Open Scope string_scope. Open Scope list_scope.

(** The work left: for each key that has not been visited. *)
Definition left_work (f : string -> nat) (ks tr : list string) : nat := list_sum (map (fun k => if mem k tr then 0 else f k) ks).
Lemma left_work_nil f ks : left_work f ks [] = list_sum (map f ks).
Proof. reflexivity. Qed.
Lemma left_work_cons f k ks tr : left_work f (k :: ks) tr = (if mem k tr then 0 else f k) + left_work f ks tr.
Proof. reflexivity. Qed.
Lemma mem_cons_other k b tr : k <> b -> mem k (b :: tr) = mem k tr.
Proof.
  intros D. destruct (mem k tr) eqn:M; [apply mem_In; right; now apply mem_In|]. apply mem_false. apply mem_false in M. intros [Q|Q]; [now symmetry in Q|contradiction].
Qed.
Lemma left_work_same f ks tr b : ~ In b ks -> left_work f ks (b :: tr) = left_work f ks tr.
Proof.
  induction ks as [|k ks IH]; intros N; [reflexivity|]. rewrite !left_work_cons, IH by (intros H; apply N; now right).
  rewrite mem_cons_other by (intros ->; apply N; now left). reflexivity.
Qed.
Lemma left_work_visit f ks tr b : NoDup ks -> In b ks -> ~ In b tr -> left_work f ks (b :: tr) + f b = left_work f ks tr.
Proof.
  induction ks as [|k ks IH]; intros N I Nb; [destruct I|]. inversion N as [|? ? N1 N2]; subst. rewrite !left_work_cons.
  destruct (string_dec k b) as [->|D].
  - rewrite left_work_same by exact N1. assert (mem b (b :: tr) = true) as -> by (apply mem_In; now left). assert (mem b tr = false) as -> by now apply mem_false. lia.
  - destruct I as [->|I]; [contradiction|]. specialize (IH N2 I Nb). rewrite (mem_cons_other k b tr D). lia.
Qed.

Section Total.
Variables (env : layout_env) (lv0 : lives).
Hypothesis OK : component_ok env lv0.
Hypothesis TB : tables_ok env lv0.
Let udict := unification_block_dict (le_blocks env).

Definition live_ok (lv : lives) : Prop := extends lv0 lv /\ map fst lv = map fst lv0.

Lemma propagate_total first vals : NoDup vals -> forall fuel stack tr lv, live_ok lv -> (forall x, In x stack -> exists b, block_at env x b) ->
  length stack + left_work (fun k => length (le_preds env k)) (map fst lv0) tr <= fuel ->
  exists lv', propagate_loop fuel env first vals stack tr lv = Ok lv' /\ live_ok lv'.
Proof.
  intros Nv. induction fuel as [|fuel IH]; intros stack tr lv (EX & KS) Bl F; cbn [propagate_loop].
  - destruct stack as [|x stack]; [|cbn [length] in F; lia]. cbn [rev]. exists lv. split; [reflexivity|split; assumption].
  - destruct (rev stack) as [|b rest] eqn:R; [exists lv; split; [reflexivity|split; assumption]|].
    assert (Es : stack = rev rest ++ [b]) by (rewrite <- (rev_involutive stack), R; reflexivity).
    assert (Ls : length stack = S (length rest)) by (rewrite <- rev_length, R; reflexivity).
    assert (Bl' : forall x, In x (rev rest) -> exists b, block_at env x b) by (intros x Ix; apply Bl; rewrite Es; apply in_app_iff; now left).
    destruct (mem b tr || String.eqb b first) eqn:C.
    + apply IH; [split; assumption|exact Bl'|]. rewrite rev_length. lia.
    + apply orb_false_iff in C as (C & _). apply mem_false in C.
      destruct (Bl b) as (blk & Bb); [rewrite Es; apply in_app_iff; right; now left|].
      destruct (ok_live _ _ OK _ _ Bb) as (l0 & L0 & _). destruct (EX b l0 L0) as (l & L & SL). rewrite L. cbn [of_option bind].
      apply IH.
      * split.
        -- intros x lx Lx. rewrite lookup_dict_set. destruct (String.eqb_spec b x) as [->|]; [|now apply EX].
           rewrite L0 in Lx. injection Lx as <-. eexists. split; [reflexivity|]. destruct SL as (S1 & S2 & S3 & S4). unfold same_live, extend_live. cbn. repeat split; auto using union_NoDup.
        -- rewrite dict_set_same_keys; [exact KS|]. eapply lookup_In_key; eauto.
      * intros x Ix. apply in_app_iff in Ix as [Ix|Ix]; [auto|]. exact (tb_preds _ _ TB b blk x Bb Ix).
      * rewrite app_length, rev_length. pose proof (left_work_visit (fun k => length (le_preds env k)) (map fst lv0) tr b (tb_live _ _ TB) (lookup_In_key _ _ _ L0) C). cbn beta in *. lia.
Qed.

Lemma preserve_total path out values lv last : live_ok lv -> hd_error (rev path) = Some last -> (exists b, block_at env last b) ->
  exists lv', preserve_stack_dominant_path env path out values lv = Ok lv' /\ live_ok lv'.
Proof.
  intros H Hl (b & Bb). pose proof H as (EX & KS). unfold preserve_stack_dominant_path. rewrite Hl. cbn [of_option bind].
  destruct path as [|p0 ps]; [discriminate|]. cbn [hd_error of_option bind].
  destruct (ok_live _ _ OK _ _ Bb) as (l0 & L0 & _). destruct (EX last l0 L0) as (l & L & _). rewrite L. cbn [of_option bind].
  destruct (union _ _) as [|v vs] eqn:U; [exists lv; split; [reflexivity|exact H]|].
  apply propagate_total; [rewrite <- U; apply union_NoDup; apply NoDup_nodup|exact H|intros x [<-|[]]; eauto|].
  rewrite left_work_nil. unfold propagate_fuel. rewrite <- (map_map fst (fun k => length (le_preds env k))), KS. cbn [length]. lia.
Qed.

Lemma phi_records_total nb next : block_at env next nb -> exists phis, map_result phi_record (phi_instructions nb) = Ok phis.
Proof.
  intros B. apply map_result_exists. intros i Ii. destruct (ok_phis _ _ OK _ _ _ B Ii) as (_ & _ & _ & _ & u & Hu & _).
  unfold phi_record. rewrite Hu. cbn [of_option bind]. eauto.
Qed.

Lemma unify_total lv id input next elements nb : live_ok lv -> brothers env id next nb elements ->
  unify env lv id input (next, elements, phi_instructions nb) = Raise AssertionError
  \/ exists combined stacks lv', unify env lv id input (next, elements, phi_instructions nb) = Ok (combined, stacks, lv') /\ live_ok lv'.
Proof.
  intros HL Hb. pose proof HL as (EX & KS). pose proof Hb as (Bn & Jn & Iid & Ee). unfold unify.
  assert (Bel : forall p, In p elements -> exists pb, block_at env p pb).
  { intros p Ip. apply (elements_In _ _ OK _ _ _ _ Hb) in Ip. destruct (ok_preds _ _ OK _ _ _ Bn Ip) as (pb & Bp & _). eauto. }
  assert (CL : exists live, combined_liveness lv next elements = Ok live).
  { unfold combined_liveness.
    assert (G : forall es d0, (forall p, In p es -> exists pb, block_at env p pb) -> exists d, for_each (fun d e => do l <- of_option (lookup e lv); Ok (dict_set e (out_vars l) d)) es d0 = Ok d).
    { induction es as [|e es IH]; intros d0 Hp; cbn [for_each]; [eauto|]. destruct (Hp e (or_introl eq_refl)) as (pb & Bp).
      destruct (ok_live _ _ OK _ _ Bp) as (l0 & L0 & _). destruct (EX e l0 L0) as (l & L & _). rewrite L. cbn [of_option bind]. apply IH. intros; apply Hp; now right. }
    destruct (G elements [] Bel) as (d & ->). cbn [bind]. destruct (ok_live _ _ OK _ _ Bn) as (l0 & L0 & _). destruct (EX next l0 L0) as (l & L & _). rewrite L. cbn [of_option bind]. eauto. }
  destruct CL as (live & CL). rewrite CL. cbn [bind]. destruct (phi_records_total nb next Bn) as (phis & MP). rewrite MP. cbn [bind].
  destruct (tb_order _ _ TB next nb Bn) as (info & ->). cbn [of_option bind].
  destruct (combined_liveness_spec _ _ _ _ CL) as ((ln & Ln & Lt) & Le).
  destruct (phi_records_ok _ _ OK next nb phis Bn MP) as (NP & PI & PB & PR).
  pose proof (elements_NoDup _ _ OK _ _ _ _ Hb) as NE.
  destruct (ok_live _ _ OK _ _ Bn) as (l0n & L0n & Nin & Nout & Phin & _).
  destruct (EX next l0n L0n) as (ln' & Ln' & (S1 & S2 & S3 & S4)). rewrite Ln in Ln'. injection Ln' as <-.
  assert (Nlt : NoDup (in_vars ln)) by (unfold in_vars; rewrite S1; now apply union_NoDup).
  assert (Hl : forall p, In p elements -> exists lp, lookup p live = Some lp) by (intros p Ip; destruct (Le p Ip) as (_ & _ & _ & v & Q); eauto).
  assert (Hi : forall f, In f phis -> length (p_ins f) = length elements).
  { intros f If. destruct (PI f If) as (L & _). rewrite L, Ee. destruct (cb_entries nb) eqn:En; [|reflexivity].
    exfalso. assert (H : In (p_out f) (map p_out phis)) by now apply in_map. apply PR in H as (i & Ii & _). destruct (ok_phis _ _ OK _ _ _ Bn Ii) as (Ne & _). congruence. }
  destruct (match elements with [e1; e2] => preserve_junk_dominance env e1 e2 | _ => None end) as [path|] eqn:P.
  - assert (Ior : In id elements) by now apply (elements_In _ _ OK _ _ _ _ Hb).
    destruct (dominant_total next elements live phis (in_vars ln) NE Lt Nlt Hl NP Hi info id input (can_have_junk env id) Ior) as [->|(c & s & vs & U)]; [left; reflexivity|].
    right. rewrite U. cbn [bind]. destruct elements as [|e1 [|e2 [|? ?]]]; try discriminate.
    assert (Hp : exists a, le_path env e1 e2 = Some a /\ path = a).
    { unfold preserve_junk_dominance in P. destruct (le_path env e1 e2) as [a|]; [|discriminate]. exists a. split; [reflexivity|]. destruct (length a <? 6)%nat; [congruence|].
      destruct (3 <? _)%nat; congruence. }
    destruct Hp as (a & Pa & ->). destruct (tb_path _ _ TB _ _ _ Pa) as (H1 & H2). rewrite H2. cbn [of_option bind].
    destruct (dominant_weak next [e1; e2] live phis (in_vars ln) NE Lt Nlt Hl NP Hi PB (fun f If => proj2 (PI f If)) _ _ _ _ _ _ _ U) as (_ & _ & U3).
    destruct (U3 e2) as (ag & rs & Ls & _); [right; now left|]. rewrite Ls. cbn [of_option bind].
    destruct (preserve_total a (ag ++ rs) vs lv e2 HL H2) as (lv' & Pr & HL'); [apply Bel; right; now left|]. rewrite Pr. cbn [bind]. eauto 10.
  - right. destruct (brothers_total next elements live phis (in_vars ln) Lt Nlt Hl info id input (can_have_junk env id)) as (c & s & U).
    rewrite U. cbn [bind]. eauto 10.
Qed.

Lemma input_total tr pending st id b : inv env lv0 tr pending st -> ~ In id tr -> ready env tr id -> block_at env id b ->
  exists input, input_stack_of env st id b = Ok input.
Proof.
  intros I Nid R B. unfold input_stack_of. destruct (cb_comes_from b) as [|p0 ps] eqn:C; [eauto|].
  destruct R as [->|(p & pb & Hp & Bp & Sp)].
  { destruct (tb_start _ _ TB) as (b' & B' & C'). unfold block_at in B, B'. rewrite B in B'. injection B' as <-. congruence. }
  destruct (ok_succs _ _ OK _ _ _ Bp Sp) as (sb & Bs & Is). assert (sb = b) as -> by (unfold block_at in B, Bs; congruence).
  destruct (done_out _ _ _ _ _ p I Hp) as (op & Lp). rewrite C in Is.
  destruct (Nat.lt_ge_cases 1 (length (cb_comes_from b))) as [Jn|Jn].
  - destruct (i_join _ _ _ _ _ I id b B Jn) as [(_ & N)|(c & Lc & Nc & Fc)].
    { exfalso. rewrite C in N. specialize (N p Is). congruence. }
    rewrite C in Jn, Fc. destruct (1 <? _)%nat; [rewrite Lc; cbn; eauto|].
    destruct (Fc p0 (or_introl eq_refl)) as (o & -> & _). cbn. eauto.
  - rewrite C in Jn. destruct ps as [|p1 ps]; [|cbn [length] in Jn; lia]. destruct Is as [->|[]].
    match goal with |- context [filter ?f [p]] => pose proof (filter_le f [p]) as Le; destruct (Nat.ltb_spec 1 (length (filter f [p]))) as [Lt|_] end.
    { cbn [length] in Le. lia. }
    rewrite Lp. cbn. eauto.
Qed.

Lemma construct_total tr pending st id b : inv env lv0 tr pending st -> map fst (ly_live st) = map fst lv0 -> ~ In id tr -> ready env tr id -> block_at env id b ->
  construct_block env udict st id b = Raise AssertionError
  \/ exists st', construct_block env udict st id b = Ok st' /\ map fst (ly_live st') = map fst lv0.
Proof.
  intros I KS Nid R B. unfold construct_block.
  destruct (ok_live _ _ OK _ _ B) as (l0 & L0 & Nin & Nout & _). destruct (i_live _ _ _ _ _ I id l0 L0) as (l & Ll & SL). rewrite Ll. cbn [of_option bind].
  destruct (input_total _ _ _ _ _ I Nid R B) as (input0 & ->). cbn [bind]. cbv zeta.
  set (input := if can_have_junk env id then forget_values input0 (in_vars l) else input0).
  assert (SL' : NoDup (out_vars l)) by (unfold out_vars; destruct SL as (_ & S2 & _ & S4); rewrite S2; now apply union_NoDup).
  match goal with |- context [match lookup id udict with Some _ => _ | None => ?fr end] => set (fresh := fr) end.
  assert (Fresh : exists st', fresh = Ok st' /\ map fst (ly_live st') = map fst lv0).
  { unfold fresh. destruct (tb_order _ _ TB id b B) as (info & ->). cbn [of_option bind]. destruct (ends_program (cb_type b) || ends_program (le_previous env id)).
    - destruct (propagate_output_correct input (final_stack_elements b) (in_vars l) (out_vars l) info (split_in_args b)) as (new & dr & kept & bot & rem & E & _).
      rewrite E. cbn [bind]. eexists. split; [reflexivity|exact KS].
    - destruct (output_layout_correct input (final_stack_elements b) (out_vars l) info (can_have_junk env id) SL') as (body & tail & E & _).
      rewrite E. cbn [bind]. eexists. split; [reflexivity|exact KS]. }
  destruct (lookup id udict) as [[[next elements] phis]|] eqn:U; [|right; exact Fresh].
  destruct (1 <? length elements)%nat; [|right; exact Fresh]. destruct (lookup id (ly_out st)) as [out|]; [right; eexists; split; [reflexivity|exact KS]|].
  destruct (udict_Some env lv0 OK id next elements phis U) as (nb & Hb & ->).
  destruct (unify_total (ly_live st) id input next elements nb (conj (i_live _ _ _ _ _ I) KS) Hb) as [->|(c & s & lv' & E & (EX' & KS'))]; [left; reflexivity|].
  right. rewrite E. cbn [bind].
  destruct (unify_spec env lv0 OK _ _ _ _ _ _ _ _ _ (i_live _ _ _ _ _ I) Hb E) as (_ & NDs & _ & _ & Hs).
  destruct (Hs id) as (o & Lo & _); [apply (elements_In _ _ OK _ _ _ _ Hb); apply Hb|].
  rewrite (proj2 (dict_update_lookup s (ly_out st) id) NDs o Lo). cbn [of_option bind]. eexists. split; [reflexivity|exact KS'].
Qed.

Lemma new_total depth tr ss : (forall s, In s ss -> exists d, lookup s (le_depth env) = Some d) -> forall new0, exists new,
  for_each (fun new s => if mem s tr then Ok new else do d <- of_option (lookup s (le_depth env)); Ok (new ++ [(d, S depth, s)])) ss new0 = Ok new
  /\ length new <= length new0 + length ss.
Proof.
  induction ss as [|s ss IH]; intros H new0; cbn [for_each]; [exists new0; split; [reflexivity|lia]|].
  destruct (mem s tr); cbn [bind].
  - destruct (IH (fun x I => H x (or_intror I)) new0) as (new & E & L). exists new. split; [exact E|]. cbn [length]. lia.
  - destruct (H s (or_introl eq_refl)) as (d & ->). cbn [of_option bind]. destruct (IH (fun x I => H x (or_intror I)) (new0 ++ [(d, S depth, s)])) as (new & E & L).
    exists new. split; [exact E|]. rewrite app_length in L. cbn [length] in *. lia.
Qed.
Lemma pop_min_length : forall l a m r, pop_min a l = (m, r) -> length r = length l.
Proof.
  induction l as [|b l IH]; intros a m r H; cbn [pop_min] in H; [injection H as _ <-; reflexivity|].
  destruct (entry_le a b); [destruct (pop_min a l) as [m' r'] eqn:E|destruct (pop_min b l) as [m' r'] eqn:E]; injection H as _ <-; cbn [length]; f_equal; eauto.
Qed.

Definition succ_count (x : string) : nat := match lookup x (le_blocks env) with Some b => length (successors b) | None => 0 end.
Lemma loop_total : forall fuel pending tr st, inv env lv0 tr pending st -> map fst (ly_live st) = map fst lv0 ->
  length pending + left_work succ_count (map fst (le_blocks env)) tr <= fuel ->
  construct_loop fuel env udict pending tr st = Raise AssertionError \/ exists st', construct_loop fuel env udict pending tr st = Ok st'.
Proof.
  induction fuel as [|fuel IH]; intros pending tr st I KS F; cbn [construct_loop]; destruct pending as [|e es]; try (right; eauto; fail); [cbn [length] in F; lia|].
  destruct (pop_min e es) as [[[d depth] id] rest] eqn:PM. pose proof (pop_min_In es e (d, depth, id) rest PM) as PI. pose proof (pop_min_length _ _ _ _ PM) as PL. cbn [length] in F.
  assert (R : ready env tr id) by (apply (i_pending _ _ _ _ _ I d depth id); apply PI; now left).
  destruct (mem id tr) eqn:M.
  - apply mem_In in M. apply IH; [|exact KS|lia]. destruct I. constructor; auto.
    + intros d' r x Hx. apply (i_pending d' r x). apply PI. now right.
    + intros p pb s Hp Bp Hs. destruct (i_closed p pb s Hp Bp Hs) as [Q|(d' & r & Q)]; [now left|]. apply PI in Q as [Q|Q]; [injection Q as _ _ <-; now left|right; eauto].
    + destruct i_first as [Q|(d' & r & Q)]; [now left|]. apply PI in Q as [Q|Q]; [injection Q as _ _ <-; now left|right; eauto].
  - apply mem_false in M.
    assert (B : exists b, block_at env id b).
    { destruct R as [->|(p & pb & Hp & Bp & Sp)]; [destruct (tb_start _ _ TB) as (b & B & _); eauto|]. destruct (ok_succs _ _ OK _ _ _ Bp Sp) as (b & B & _). eauto. }
    destruct B as (b & B). pose proof B as B'. unfold block_at in B'. rewrite B'. cbn [of_option bind].
    destruct (construct_total tr (e :: es) st id b I KS M R B) as [->|(st' & E & KS')]; [left; reflexivity|]. rewrite E. cbn [bind].
    destruct (new_total depth (id :: tr) (successors b)) with (new0 := @nil entry) as (new & NW & LN).
    { intros s Is. destruct (ok_succs _ _ OK _ _ _ B Is) as (sb & Bs & _). exact (tb_depth _ _ TB s sb Bs). }
    match goal with |- context [for_each ?f ?l ?a] => replace (for_each f l a) with (Ok new : result (list entry)) by (symmetry; exact NW) end. cbn [bind].
    pose proof (loop_step _ _ OK _ _ _ _ _ _ _ _ _ _ _ I PM M B' E NW) as I'.
    apply (IH _ _ _ I' KS'). rewrite app_length.
    pose proof (left_work_visit succ_count (map fst (le_blocks env)) tr id (ok_names _ _ OK) (lookup_In_key _ _ _ B') M) as LW. unfold succ_count at 2 in LW. rewrite B' in LW. unfold entry in *. cbn [length] in *. lia.
Qed.

Theorem traversal_total : construct_code_from_block_list env lv0 = Raise AssertionError \/ exists st, construct_code_from_block_list env lv0 = Ok st.
Proof.
  apply loop_total; [apply (inv_initial env lv0 OK)|reflexivity|]. unfold construct_fuel. rewrite left_work_nil. cbn [length].
  assert (G : forall bs, (forall nb, In nb bs -> In nb (le_blocks env)) -> list_sum (map succ_count (map fst bs)) = list_sum (map (fun nb => length (successors (snd nb))) bs)).
  { induction bs as [|[x b] bs IH]; intros H; [reflexivity|]. cbn [map list_sum fold_right fst snd]. unfold list_sum in IH. rewrite IH by (intros; apply H; now right).
    unfold succ_count. rewrite (lookup_NoDup _ _ _ (ok_names _ _ OK) (H (x, b) (or_introl eq_refl))). reflexivity. }
  rewrite (G (le_blocks env)) by auto. lia.
Qed.
End Total.
