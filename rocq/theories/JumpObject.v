(** Proofs of C43: whole lists of blocks and whole objects. *)
From Verif Require Import Base UtilModel UtilProps UnifyProps LiveModel CfgModel CfgSpec CfgProps CombineProps JumpModel JumpSpec JumpTrace JumpProofs JumpInsert JumpSplit.
Open Scope string_scope. Open Scope list_scope.

Lemma fs_dec w : {fs_word w} + {~ fs_word w}.
Proof.
  destruct (Forall_dec (fun c => c = "f"%char \/ c = "s"%char)) with (l := list_ascii_of_string w) as [H|H].
  - intros c. destruct (ascii_dec c "f"); [left; now left|]. destruct (ascii_dec c "s"); [left; now right|]. right. intros [|]; contradiction.
  - left. intros c I. rewrite Forall_forall in H. auto.
  - right. intros F. apply H. apply Forall_forall. exact F.
Qed.
Lemma spread_dec x k : {spread x k} + {~ spread x k}.
Proof.
  revert k. induction x as [|c x IH]; intros k.
  - destruct (fs_dec k) as [F|F]; [left; exists k; auto|]. right. intros (w & Fw & ->). contradiction.
  - destruct k as [|d k]; [right; intros (w & _ & Q); discriminate|]. destruct (ascii_dec c d) as [->|N].
    + destruct (IH k) as [H|H]; [left|right].
      * destruct H as (w & F & ->). exists w. auto.
      * intros (w & F & Q). cbn in Q. injection Q as ->. apply H. exists w. auto.
    + right. intros (w & _ & Q). cbn in Q. congruence.
Defined.

Section List.
Variable f2t : tag_dict.
Variable ret : option string.
Hypothesis reserved : forall f, In f (map fst f2t) -> ~ In f ["PUSH [tag]"; "JUMP"; "JUMPI"; "functionReturn"; "PhiFunction"].
Let E := before (map fst f2t) ret.

Lemma finish_ok b tags pre rest : good_tags tags -> exits (map fst f2t) ret tags b -> cb_instrs b = pre ++ rest -> callfree f2t pre -> length rest <= 1 -> untagged (map fst f2t) (cb_instrs b) ->
  exists b' tags', finish_block f2t b tags = Ok (b', tags') /\ good_tags tags' /\ grown tags tags' /\ within (successors b) tags tags'
    /\ exits (map fst f2t) ret tags' b' /\ settled f2t tags' b' /\ edited_block E b b' /\ kept_links b b'.
Proof.
  intros G X I CF LE UT. unfold finish_block. destruct (snoc_cases (cb_instrs b)) as [I0|(l & last & I1)].
  { rewrite I0. cbn [rev]. exists b, tags. split; [reflexivity|]. split; [exact G|]. split; [apply grown_refl|]. split; [apply within_refl|]. split; [exact X|]. split; [|split; [|split; reflexivity]].
    - split; [|intros p i q t Q; rewrite I0 in Q; destruct p; discriminate|intros p i Q; rewrite I0 in Q; destruct p; discriminate]. destruct X as [A B C D P XS XJ]. intros [T|[T|[T|[]]]]; exfalso; symmetry in T.
      + destruct (A T) as (p & j & t & _ & _ & _ & Q). rewrite I0 in Q. destruct p; discriminate.
      + destruct (B T) as (p & j & f & c & t & _ & _ & _ & _ & Q). rewrite I0 in Q. destruct p; discriminate.
      + destruct (C T) as (_ & p & r & vs & _ & _ & Q). rewrite I0 in Q. destruct p; discriminate.
    - repeat split; reflexivity. }
  assert (CL : callfree f2t l).
  { intros i Ii. apply CF. destruct (snoc_cases rest) as [->|(r & z & ->)].
    - rewrite app_nil_r in I. rewrite <- I, I1. apply in_app_iff. now left.
    - rewrite app_length in LE. cbn in LE. destruct r; [|cbn in LE; lia]. cbn in I. rewrite I1 in I. apply app_inj_tail in I as (<- & _). exact Ii. }
  replace (rev (cb_instrs b)) with (last :: rev l) by (rewrite I1, rev_app_distr; reflexivity).
  destruct (lookup (li_op last) f2t) as [ft|] eqn:LC.
  - (* a call *)
    pose proof (reserved _ (lookup_In_key _ _ _ LC)) as RS.
    assert (NT : cb_type b <> "unconditional" /\ cb_type b <> "conditional" /\ cb_type b <> "FunctionReturn").
    { destruct X as [A B C D P XS XJ]. split; [|split]; intros T.
      - destruct (A T) as (p & j & t & _ & _ & _ & Q). rewrite I1 in Q. change [push_tag t; jump_instr t] with ([push_tag t] ++ [jump_instr t]) in Q. rewrite app_assoc in Q.
        apply app_inj_tail in Q as (_ & ->). cbn in RS. tauto.
      - destruct (B T) as (p & j & f & c & t & _ & _ & _ & _ & Q). rewrite I1 in Q. change [push_tag t; jumpi_instr t c] with ([push_tag t] ++ [jumpi_instr t c]) in Q. rewrite app_assoc in Q.
        apply app_inj_tail in Q as (_ & ->). cbn in RS. tauto.
      - destruct (C T) as (_ & p & r & vs & _ & _ & Q). rewrite I1 in Q. apply app_inj_tail in Q as (_ & ->). cbn in RS. tauto. }
    destruct NT as (NU & NC & NF). pose proof (ex_other _ _ _ _ X NU NC) as J.
    assert (NP : li_op last <> "PhiFunction") by (cbn in RS; intuition congruence).
    pose proof (phi_count_le l last NP) as LEP. pose proof (ex_phis _ _ _ _ X) as PF. rewrite I1 in PF |- *. set (k := phi_count (l ++ [last])) in *.
    destruct (phis_insert (l ++ [last]) (push_tag ft)) as (P1 & C1); [discriminate|exact PF|]. fold k in P1, C1.
    assert (PHX : forall m i, phis_first (m ++ [last]) -> li_op i = li_op last -> phis_first (m ++ [i])) by (intros m i H Q; apply phis_snoc; [intros z [<-|[]]; congruence|eapply phis_prefix; exact H]).
    assert (EX : forall tg m i, phis_first (m ++ [i]) -> li_op i = li_op last -> inner m -> exits (map fst f2t) ret tg (set_split (Some i) (set_instrs (m ++ [i]) b))).
    { intros tg m i H Q JM. split; cbn [set_split set_instrs cb_type cb_instrs cb_split cb_jump_to]; try (intros; congruence); [|eapply tidy_snoc; [reflexivity|exact JM|rewrite Q; cbn in RS; intuition congruence|rewrite Q; cbn in RS; repeat split; intros; exfalso; intuition congruence]]. intros j Qj. injection Qj as <-. split; [|now exists m].
      apply in_app_iff. right. rewrite Q. exact (lookup_In_key _ _ _ LC). }
    assert (JL : inner l) by (eapply tidy_inner; [apply (ex_tidy _ _ _ _ X)|exact I1]).
    assert (NVL : forall v, In v (li_ins last) -> numeral v = false) by (apply UT; [rewrite I1; apply in_app_iff; right; now left|exact (lookup_In_key _ _ _ LC)]).
    destruct (cb_falls_to b) as [next|] eqn:F.
    + replace (successors b) with [next] by (unfold successors; now rewrite J, F). cbv zeta.
      destruct (tag_from_tag_dict next tags) as [nt tags'] eqn:TG. destruct (tag_request _ _ _ _ G TG) as (G' & L & O & M).
      set (i' := {| li_op := li_op last; li_ins := str_nat ft :: li_ins last ++ [str_nat nt]; li_outs := li_outs last; li_lits := li_lits last |}).
      destruct (phis_insert _ (push_tag nt) ltac:(discriminate) P1) as (P2 & C2). rewrite C1 in P2.
      rewrite insert_snoc in P2 |- * by exact LEP. rewrite insert_snoc in P2 |- * by (rewrite insert_length; lia). rewrite replace_snoc.
      assert (CF2 : callfree f2t (insert_at k (push_tag nt) (insert_at k (push_tag ft) l))) by (apply callfree_insert; [exact reserved|]; apply callfree_insert; [exact reserved|exact CL]).
      eexists _, tags'. split; [reflexivity|]. split; [exact G'|]. split; [exact M|]. split; [intros z N; apply O; intros ->; apply N; now left|].
      split; [apply EX; [eapply PHX; eauto|reflexivity|repeat apply inner_insert; exact JL]|]. split; [|split; [|split; reflexivity]].
      * split; cbn [set_split set_instrs cb_type cb_instrs cb_split].
        { cbn. intuition congruence. }
        2: { intros p i Q _. apply app_inj_tail in Q as (_ & <-). reflexivity. }
        intros p i q t Q Li. destruct (callfree_snoc f2t p i q _ i' CF2 Q) as (-> & -> & _); [congruence|]. split; [reflexivity|]. split; [reflexivity|].
        cbn [li_op i'] in Li. rewrite LC in Li. injection Li as <-. exists (li_ins last), [str_nat nt]. split; [exact NVL|]. split; [|split; [reflexivity|]].
        { apply in_app_iff. left. apply insert_In. right. apply insert_In. now left. }
        unfold successors. cbn [set_split set_instrs cb_jump_to cb_falls_to]. rewrite J, F. cbn [opt_list app]. split; [reflexivity|]. exists nt. split; [exact L|]. split; [|reflexivity].
        apply in_app_iff. left. apply insert_In. now left.
      * split; [reflexivity|]. split; [reflexivity|]. split; [reflexivity|]. cbn [set_split set_instrs cb_instrs]. rewrite I1.
        change (shown f2t ret (insert_at k (push_tag nt) (insert_at k (push_tag ft) l) ++ [i']) = shown f2t ret (l ++ [last])).
        rewrite !shown_app, !shown_insert. f_equal. unfold shown. cbn [map flat_map]. f_equal. apply (E_call f2t ret reserved last i' ft LC).
        split; [reflexivity|]. split; [reflexivity|]. split; [reflexivity|]. exists ft, [str_nat nt]. split; [reflexivity|]. right. now exists nt.
    + replace (successors b) with (@nil string) by (unfold successors; now rewrite J, F). cbv zeta.
      set (i' := {| li_op := li_op last; li_ins := str_nat ft :: li_ins last ++ []; li_outs := li_outs last; li_lits := li_lits last |}).
      rewrite insert_snoc in P1 |- * by exact LEP. rewrite replace_snoc.
      assert (CF2 : callfree f2t (insert_at k (push_tag ft) l)) by (apply callfree_insert; [exact reserved|exact CL]).
      eexists _, tags. split; [reflexivity|]. split; [exact G|]. split; [apply grown_refl|]. split; [apply within_refl|].
      split; [apply EX; [eapply PHX; eauto|reflexivity|repeat apply inner_insert; exact JL]|]. split; [|split; [|split; reflexivity]].
      * split; cbn [set_split set_instrs cb_type cb_instrs cb_split].
        { cbn. intuition congruence. }
        2: { intros p i Q _. apply app_inj_tail in Q as (_ & <-). reflexivity. }
        intros p i q t Q Li. destruct (callfree_snoc f2t p i q _ i' CF2 Q) as (-> & -> & _); [congruence|]. split; [reflexivity|]. split; [reflexivity|].
        cbn [li_op i'] in Li. rewrite LC in Li. injection Li as <-. exists (li_ins last), []. split; [exact NVL|]. split; [|split; [reflexivity|]].
        { apply in_app_iff. left. apply insert_In. now left. }
        unfold successors. cbn [set_split set_instrs cb_jump_to cb_falls_to]. rewrite J, F. reflexivity.
      * split; [reflexivity|]. split; [reflexivity|]. split; [reflexivity|]. cbn [set_split set_instrs cb_instrs]. rewrite I1.
        change (shown f2t ret (insert_at k (push_tag ft) l ++ [i']) = shown f2t ret (l ++ [last])).
        rewrite !shown_app, !shown_insert. f_equal. unfold shown. cbn [map flat_map]. f_equal. apply (E_call f2t ret reserved last i' ft LC).
        split; [reflexivity|]. split; [reflexivity|]. split; [reflexivity|]. exists ft, []. split; [reflexivity|]. now left.
  - (* no call *)
    assert (NC : forall sp p i q t, cb_instrs (set_split sp b) = p ++ i :: q -> lookup (li_op i) f2t = Some t -> False).
    { cbn [set_split cb_instrs]. intros _ p i q t Q Li. rewrite I1 in Q. destruct (callfree_snoc f2t p i q _ last CL Q) as (_ & -> & _); congruence. }
    destruct (mem (li_op last) (["JUMP"; "JUMPI"] ++ terminal_ops)) eqn:MM.
    + eexists _, tags. split; [reflexivity|]. split; [exact G|]. split; [apply grown_refl|]. split; [apply within_refl|]. split.
      { destruct X; split; auto. cbn [set_split cb_split cb_instrs]. intros i Q. injection Q as <-. apply mem_In in MM. split; [apply in_app_iff; left; exact MM|now exists l]. }
      split; [|split; [repeat split; reflexivity|split; reflexivity]].
      split; [|intros p i q t Q Li; elim (NC _ p i q t Q Li)|].
      { intros _. exists l, last. auto. }
      { cbn [set_split cb_split cb_instrs]. intros p i Q _. rewrite I1 in Q. apply app_inj_tail in Q as (_ & <-). reflexivity. }
    + exists b, tags. split; [reflexivity|]. split; [exact G|]. split; [apply grown_refl|]. split; [apply within_refl|]. split; [exact X|]. split; [|split; [repeat split; reflexivity|split; reflexivity]].
      split; [|intros p i q t Q Li; elim (NC None p i q t Q Li)|].
      2: { intros p i Q Hin. rewrite I1 in Q. apply app_inj_tail in Q as (_ & <-). exfalso. apply in_app_iff in Hin as [H|H]; [apply mem_false in MM; apply MM; exact H|]. apply lookup_None in LC. contradiction. }
      destruct X as [A B C D P XS XJ]. apply mem_false in MM. intros T. exfalso. destruct T as [T|[T|[T|[]]]]; symmetry in T.
      * destruct (A T) as (p & j & t & _ & _ & _ & Q). rewrite I1 in Q. change [push_tag t; jump_instr t] with ([push_tag t] ++ [jump_instr t]) in Q. rewrite app_assoc in Q.
        apply app_inj_tail in Q as (_ & ->). apply MM. cbn. tauto.
      * destruct (B T) as (p & j & f & c & t & _ & _ & _ & _ & Q). rewrite I1 in Q. change [push_tag t; jumpi_instr t c] with ([push_tag t] ++ [jumpi_instr t c]) in Q. rewrite app_assoc in Q.
        apply app_inj_tail in Q as (_ & ->). apply MM. cbn. tauto.
      * destruct (C T) as (_ & p & r & vs & _ & _ & Q). rewrite I1 in Q. apply app_inj_tail in Q as (_ & ->). apply MM. cbn. tauto.
Qed.

(** Names and tags away from the blocks treated. *)
Record around (roots : list string) (g : clist) (tags : tag_dict) (g' : clist) (tags' : tag_dict) : Prop := {
  ar_grown : forall k t, (forall x, In x roots -> ~ spread x k) -> lookup k tags = Some t -> lookup k tags' = Some t;
  ar_tags : forall k, (forall x, In x roots -> ~ spread x k) -> ~ In k (map fst (cl_blocks g)) -> lookup k tags' = lookup k tags;
  ar_ids : forall k, (forall x, In x roots -> ~ spread x k) -> In k (map fst (cl_blocks g')) <-> In k (map fst (cl_blocks g))
}.
Definition apart (x y : string) : Prop := forall k, spread x k -> spread y k -> False.

Lemma split_step_ok x g tags (todo : string -> Prop) : good_tags tags -> well f2t ret g tags (fun y => y = x \/ todo y) -> In x (map fst (cl_blocks g)) ->
  free_below x (map fst (cl_blocks g)) tags -> (forall y, todo y -> In y (map fst (cl_blocks g)) /\ ~ spread x y) ->
  exists g' tags', split_step f2t (g, tags) x = Ok (g', tags') /\ good_tags tags' /\ well f2t ret g' tags' todo
    /\ changed E g g' /\ around [x] g tags g' tags' /\ start_kept g tags g' tags'.
Proof.
  intros G W I FB TD. destruct (key_lookup _ _ I) as (b & L). unfold split_step. cbn [fst snd]. unfold get_block at 1. rewrite L. cbn [of_option bind].
  destruct (split_calls f2t ret reserved (cb_instrs b) x 0 g tags b [] todo G W L eq_refl eq_refl) as (cur & g1 & tags1 & b1 & pre & rest & R & G1 & W1 & L1 & I1 & CF & LE & SP & AL & LO & SK); auto.
  { intros i []. }
  rewrite R. cbn [bind]. unfold get_block. rewrite L1. cbn [of_option bind].
  destruct W1 as (C1 & LK1 & BL1). destruct (BL1 cur b1 L1) as (X1 & _ & U1).
  destruct (finish_ok b1 tags1 pre rest G1 X1 I1 CF LE (U1 (or_introl eq_refl))) as (b2 & tags2 & R2 & G2 & M2 & WI & X2 & S2 & ED & KL). rewrite R2. cbn [bind fst snd].
  pose proof (lookup_In_key _ _ _ L1) as KC. assert (KG : map fst (cl_blocks (put_block cur b2 g1)) = map fst (cl_blocks g1)) by (apply dict_set_same_keys; exact KC).
  exists (put_block cur b2 g1), tags2. split; [reflexivity|]. split; [exact G2|]. split; [|split; [|split]].
  - destruct KL. split; [eapply consistent_put; eauto|]. split; [eapply linked_put; eauto|]. intros y q. cbn [put_block cl_blocks]. rewrite lookup_dict_set. destruct (String.eqb_spec cur y) as [<-|NE].
    + intros Q. injection Q as <-. split; [exact X2|]. split; [auto|]. intros TC. destruct (TD cur TC) as (_ & NS). elim (NS SP).
    + intros Q. destruct (BL1 y q Q) as (Xq & Sq & Uq). split; [eapply exits_tags; [|exact Xq]; intros; now apply M2|]. split; [|intros NT; apply Uq; now right]. intros NT. eapply settled_tags; [intros j t _ Lj; apply M2; exact Lj|].
      apply Sq. intros [|]; [congruence|contradiction].
  - eapply changed_trans; [exact AL|]. eapply ch_edit; [exact L1|exact ED|exact KL|apply ch_refl].
  - assert (NS : forall k, (forall z, In z [x] -> ~ spread z k) -> ~ spread x k) by (intros k H; apply H; now left). split.
    + intros k t N Lk. apply M2. rewrite (lo_tags _ _ _ _ _ LO); auto.
    + intros k N NI. rewrite WI, (lo_tags _ _ _ _ _ LO); auto. intros H. apply NI. apply (lo_ids _ _ _ _ _ LO); [auto|]. eapply target_known; eauto.
    + intros k N. rewrite KG. apply (lo_ids _ _ _ _ _ LO). auto.
  - eapply start_kept_trans; [exact SK|]. intros s t S Ls. exists s. split; [exact S|]. now apply M2.
Qed.

Lemma split_loop : forall todo g tags, NoDup todo -> good_tags tags -> well f2t ret g tags (fun y => In y todo) -> incl todo (map fst (cl_blocks g)) ->
  (forall x y, In x todo -> In y todo -> x <> y -> apart x y) -> (forall x, In x todo -> free_below x (map fst (cl_blocks g)) tags) ->
  exists g' tags', for_each (split_step f2t) todo (g, tags) = Ok (g', tags') /\ good_tags tags' /\ well f2t ret g' tags' (fun _ => False)
    /\ changed E g g' /\ around todo g tags g' tags' /\ start_kept g tags g' tags'.
Proof.
  induction todo as [|x todo IH]; intros g tags ND G W IN AP FB.
  - exists g, tags. split; [reflexivity|]. split; [exact G|]. split; [exact W|]. split; [apply ch_refl|]. split; [split; [auto|reflexivity|reflexivity]|]. intros s t S Ls. eauto.
  - inversion ND as [|? ? N1 N2]; subst.
    assert (AX : forall y, In y todo -> apart x y) by (intros y Iy; apply AP; [now left|now right|intros ->; contradiction]).
    destruct (split_step_ok x g tags (fun y => In y todo) G) as (g1 & tags1 & R & G1 & W1 & AL & AR & SK).
    + destruct W as (C & LK & BL). split; [exact C|]. split; [exact LK|]. intros y b L. destruct (BL y b L) as (X & S & U). split; [exact X|]. split; [intros NT; apply S; intros [|]; apply NT; auto|]. intros [->|NT]; apply U; [now left|now right].
    + apply IN. now left.
    + apply FB. now left.
    + intros y Iy. split; [apply IN; now right|]. intros H. apply (AX y Iy y H). apply spread_refl.
    + cbn [for_each]. rewrite R.
      assert (NX : forall y k, In y todo -> spread y k -> forall z, In z [x] -> ~ spread z k) by (intros y k Iy Sy z [<-|[]] H; apply (AX y Iy k H Sy)).
      destruct (IH g1 tags1 N2 G1 W1) as (g' & tags' & R' & G' & W' & AL' & AR' & SK').
      * intros y Iy. apply (ar_ids _ _ _ _ _ AR); [apply (NX y y Iy (spread_refl y))|]. apply IN. now right.
      * intros a b Ia Ib. apply AP; now right.
      * intros y Iy w F NW. assert (SW : spread y (y ++ w)%string) by (exists w; auto). destruct (FB y (or_intror Iy) w F NW) as (A & B). split.
        { rewrite (ar_ids _ _ _ _ _ AR); [exact A|]. exact (NX y _ Iy SW). }
        { rewrite (ar_tags _ _ _ _ _ AR); [exact B|exact (NX y _ Iy SW)|exact A]. }
      * exists g', tags'. split; [exact R'|]. split; [exact G'|]. split; [exact W'|]. split; [eapply changed_trans; eauto|]. split; [|eapply start_kept_trans; eauto].
        assert (S1 : forall k, (forall z, In z (x :: todo) -> ~ spread z k) -> (forall z, In z [x] -> ~ spread z k) /\ (forall z, In z todo -> ~ spread z k)).
        { intros k H. split; intros z Hz; apply H; [destruct Hz as [<-|[]]; now left|now right]. }
        split.
        { intros k t H Lk. destruct (S1 k H) as (A & B). apply (ar_grown _ _ _ _ _ AR'); auto. apply (ar_grown _ _ _ _ _ AR); auto. }
        { intros k H NI. destruct (S1 k H) as (A & B). rewrite (ar_tags _ _ _ _ _ AR'); auto; [apply (ar_tags _ _ _ _ _ AR); auto|]. rewrite (ar_ids _ _ _ _ _ AR); auto. }
        { intros k H. destruct (S1 k H) as (A & B). rewrite (ar_ids _ _ _ _ _ AR'); auto. apply (ar_ids _ _ _ _ _ AR); auto. }
Qed.

(** A list of blocks. *)
Definition below (ids : list string) (k : string) : Prop := exists x, In x ids /\ spread x k.
Lemma split_list g tags : good_tags tags -> consistent g -> linked g -> (forall x b, lookup x (cl_blocks g) = Some b -> unsplit (map fst f2t) ret tags b) ->
  (forall x y, In x (map fst (cl_blocks g)) -> In y (map fst (cl_blocks g)) -> x <> y -> apart x y) ->
  (forall x, In x (map fst (cl_blocks g)) -> free_below x (map fst (cl_blocks g)) tags) ->
  exists g' tags', modify_block_list_split f2t g tags = Ok (g', tags') /\ good_tags tags' /\ well f2t ret g' tags' (fun _ => False)
    /\ changed E g g' /\ start_kept g tags g' tags' /\ (forall k, ~ below (map fst (cl_blocks g)) k -> lookup k tags' = lookup k tags)
    /\ (forall k, In k (map fst (cl_blocks g')) -> below (map fst (cl_blocks g)) k).
Proof.
  intros G C LK X AP FB. destruct (split_loop (map fst (cl_blocks g)) g tags) as (g' & tags' & R & G' & W' & AL & AR & SK); auto.
  - apply C.
  - split; [exact C|]. split; [exact LK|]. intros x b L. split; [eapply X; eauto|]. split; [intros N; elim N; exact (lookup_In_key _ _ _ L)|]. intros _. eapply X; eauto.
  - apply incl_refl.
  - exists g', tags'. split; [exact R|]. split; [exact G'|]. split; [exact W'|]. split; [exact AL|]. split; [exact SK|]. split.
    + intros k N. apply (ar_tags _ _ _ _ _ AR); [intros x I S; apply N; now exists x|]. intros I. apply N. exists k. split; [exact I|apply spread_refl].
    + intros k I. destruct (Exists_dec (fun x => spread x k) (map fst (cl_blocks g))) as [H|H].
      * intros x. apply spread_dec.
      * apply Exists_exists in H. exact H.
      * exfalso. assert (N : forall x, In x (map fst (cl_blocks g)) -> ~ spread x k) by (intros x Ix S; apply H, Exists_exists; eauto).
        apply (ar_ids _ _ _ _ _ AR) in I; [|exact N]. apply (N k I). apply spread_refl.
Qed.
End List.
