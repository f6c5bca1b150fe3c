(** Proofs of C43: the insertion of jumps in one list of blocks. *)
From Verif Require Import Base UtilModel UtilProps UnifyProps LiveModel CfgModel CfgSpec CfgProps CombineProps JumpModel JumpSpec JumpTrace JumpProofs.
Open Scope string_scope. Open Scope list_scope.

Definition grown (tags tags' : tag_dict) : Prop := forall x t, lookup x tags = Some t -> lookup x tags' = Some t.
Lemma grown_refl t : grown t t. Proof. intros x u H; exact H. Qed.
Lemma grown_trans a b c : grown a b -> grown b c -> grown a c. Proof. intros H K x t L. auto. Qed.
(** New keys are in [ids]. *)
Definition within (ids : list string) (tags tags' : tag_dict) : Prop := forall x, ~ In x ids -> lookup x tags' = lookup x tags.
Lemma within_refl ids t : within ids t t. Proof. intros x _; reflexivity. Qed.
Lemma within_trans ids a b c : within ids a b -> within ids b c -> within ids a c. Proof. intros H K x N. rewrite K, H; auto. Qed.

Section Insert.
Variable fns : list string.
Variable ret : option string.
Hypothesis reserved : forall f, In f fns -> ~ In f ["PUSH [tag]"; "JUMP"; "JUMPI"; "functionReturn"; "PhiFunction"].
Let E := before fns ret.

(** The instruction that ends the block, before the passes. *)
Definition once (b : cblock) : Prop := (forall i, cb_split b = Some i -> In (li_op i) (leaving ++ fns) /\ exists pre, cb_instrs b = pre ++ [i]) /\ (tidy b /\ (In (cb_type b) ["unconditional"; "conditional"] -> inner (cb_instrs b)))
  /\ untagged fns (cb_instrs b) /\ forall pre vs r, cb_instrs b = pre ++ [{| li_op := "functionReturn"; li_ins := vs; li_outs := []; li_lits := None |}] -> ret = Some r -> ~ In r vs.
Lemma untagged_app l m : untagged fns l -> untagged fns m -> untagged fns (l ++ m).
Proof. intros A B i I. apply in_app_iff in I as [I|I]; [exact (A i I)|exact (B i I)]. Qed.
Lemma insert_block b tags : good_tags tags -> exit_ok b -> phis_first (cb_instrs b) -> once b -> (cb_type b = "FunctionReturn" -> ret <> None) ->
  exists b' tags', insert_jumps_block ret b tags = Ok (b', tags') /\ good_tags tags' /\ grown tags tags' /\ within (successors b) tags tags'
    /\ unsplit fns ret tags' b' /\ edited_block E b b' /\ kept_links b b'.
Proof.
  intros G (XU & XC & XR & XO) PH ON R. unfold insert_jumps_block.
  destruct (String.eqb_spec (cb_type b) "unconditional") as [T|NU].
  { destruct (XU T) as (J & F). destruct (cb_jump_to b) as [j|] eqn:JE; [|congruence]. cbn [of_option bind].
    destruct (tag_from_tag_dict j tags) as [t tags'] eqn:TG. destruct (tag_request _ _ _ _ G TG) as (G' & L & O & M).
    exists (insert_jump_instruction t b), tags'. split; [reflexivity|]. split; [exact G'|]. split; [exact M|]. split.
    { intros x N. apply O. intros ->. apply N. unfold successors. rewrite JE. now left. }
    split; [|split; [|split; reflexivity]].
    - split; [|apply untagged_app; [apply ON|]; intros z [<-|[<-|[]]] F0; elim (reserved _ F0); cbn; tauto].
      split; cbn; try (rewrite T; discriminate); try (intros; congruence); [intros; exists (cb_instrs b), j, t; rewrite JE, F; auto| | |].
      { apply phis_snoc; [|exact PH]. intros i [<-|[<-|[]]]; discriminate. }
      { intros i Q. injection Q as <-. split; [now left|]. exists (cb_instrs b ++ [push_tag t]). now rewrite <- app_assoc. }
      { eapply (tidy_snoc _ (cb_instrs b ++ [push_tag t])); [cbn; rewrite <- app_assoc; reflexivity|apply inner_push, ON; rewrite T; cbn; tauto|discriminate|repeat split; intros; (discriminate || exact T)]. }
    - split; [reflexivity|]. split; [reflexivity|]. split; [reflexivity|]. cbn [insert_jump_instruction set_split set_instrs cb_instrs].
      rewrite map_app, flat_map_app. cbn. now rewrite app_nil_r. }
  destruct (String.eqb_spec (cb_type b) "conditional") as [T|NC].
  { destruct (XC T) as (J & F & C). destruct (cb_jump_to b) as [j|] eqn:JE; [|congruence]. cbn [of_option bind].
    destruct (tag_from_tag_dict j tags) as [t tags'] eqn:TG. destruct (tag_request _ _ _ _ G TG) as (G' & L & O & M).
    unfold insert_jumpi_instruction. destruct (cb_cond b) as [c|] eqn:CE; [|congruence]. cbn [bind]. destruct (cb_falls_to b) as [f|] eqn:FE; [|congruence].
    eexists _, tags'. split; [reflexivity|]. split; [exact G'|]. split; [exact M|]. split.
    { intros x N. apply O. intros ->. apply N. unfold successors. rewrite JE. now left. }
    split; [|split; [|split; reflexivity]].
    - split; [|apply untagged_app; [apply ON|]; intros z [<-|[<-|[]]] F0; elim (reserved _ F0); cbn; tauto].
      split; cbn; try (rewrite T; discriminate); try (intros; congruence); [intros; exists (cb_instrs b), j, f, c, t; rewrite JE, FE, CE; repeat split; auto| | |].
      { apply phis_snoc; [|exact PH]. intros i [<-|[<-|[]]]; discriminate. }
      { intros i Q. injection Q as <-. split; [right; now left|]. exists (cb_instrs b ++ [push_tag t]). now rewrite <- app_assoc. }
      { eapply (tidy_snoc _ (cb_instrs b ++ [push_tag t])); [cbn; rewrite <- app_assoc; reflexivity|apply inner_push, ON; rewrite T; cbn; tauto|discriminate|repeat split; intros; (discriminate || exact T)]. }
    - split; [reflexivity|]. split; [reflexivity|]. split; [reflexivity|]. cbn [set_split set_instrs cb_instrs].
      rewrite map_app, flat_map_app. cbn. now rewrite app_nil_r. }
  specialize (XO NU NC).
  destruct (String.eqb_spec (cb_type b) "FunctionReturn") as [T|NR].
  { destruct (XR T) as (SU & pre & vs & I). specialize (R T). destruct ret as [r|] eqn:RE; [|congruence]. unfold insert_return_value. rewrite I, rev_app_distr. cbn [rev app li_op li_ins li_outs].
    cbn [String.eqb Ascii.eqb Bool.eqb py_assert bind]. rewrite rev_involutive. eexists _, tags. split; [reflexivity|].
    split; [exact G|]. split; [apply grown_refl|]. split; [apply within_refl|]. split; [|split; [|split; reflexivity]].
    - split; [|apply untagged_app; [intros z Iz; apply (proj1 (proj2 (proj2 ON))); rewrite I; apply in_app_iff; now left|]; intros z [<-|[]] F0; elim (reserved _ F0); cbn; tauto].
      split; cbn; try (rewrite T; discriminate); try (intros; congruence); [intros; split; [exact SU|]; exists pre, r, vs; split; [reflexivity|]; split; [exact (proj2 (proj2 (proj2 ON)) pre vs r I RE)|reflexivity]| | |].
      { apply phis_snoc; [|rewrite I in PH; apply phis_prefix in PH; exact PH]. intros i [<-|[]]; discriminate. }
      { intros i Q. destruct (cb_split b); [|discriminate]. cbn in Q. injection Q as <-. split; [cbn; tauto|]. now exists pre. }
      { eapply (tidy_snoc _ pre); [reflexivity|eapply tidy_inner; [apply ON|exact I]|discriminate|repeat split; intros; (discriminate || exact T)]. }
    - split; [reflexivity|]. split; [reflexivity|]. split; [reflexivity|]. cbn [set_split set_instrs cb_instrs]. rewrite I, !map_app, !flat_map_app. f_equal.
      cbn [map flat_map]. f_equal. unfold E, before. cbn [li_op li_ins li_outs].
      replace (mem "functionReturn" ["PUSH [tag]"; "JUMP"; "JUMPI"]) with false by reflexivity.
      replace (mem "functionReturn" fns) with false by (symmetry; apply mem_false; intros F0; elim (reserved _ F0); cbn; tauto).
      cbn [String.eqb Ascii.eqb Bool.eqb filter]. replace (opt_eqb (Some r) (Some r)) with true by (symmetry; apply opt_eqb_eq; reflexivity). reflexivity. }
  exists b, tags. split; [reflexivity|]. split; [exact G|]. split; [apply grown_refl|]. split; [apply within_refl|]. split; [|split; [|split; reflexivity]].
  - split; [|apply ON]. split; try (intros; congruence); [|apply ON]. exact (proj1 ON).
  - repeat split; reflexivity.
Qed.

Lemma insert_loop : forall todo g tags, NoDup todo -> good_tags tags -> consistent g -> linked g ->
  (forall x, In x todo -> exists b, lookup x (cl_blocks g) = Some b /\ exit_ok b /\ phis_first (cb_instrs b) /\ once b /\ (cb_type b = "FunctionReturn" -> ret <> None)) ->
  (forall x b, lookup x (cl_blocks g) = Some b -> ~ In x todo -> unsplit fns ret tags b) ->
  exists g' tags', for_each (fun st x =>
      do b <- get_block x (fst st);
      do r <- insert_jumps_block ret b (snd st);
      Ok (put_block x (fst r) (fst st), snd r)) todo (g, tags) = Ok (g', tags')
    /\ good_tags tags' /\ grown tags tags' /\ within (map fst (cl_blocks g)) tags tags' /\ consistent g' /\ linked g' /\ changed E g g'
    /\ map fst (cl_blocks g') = map fst (cl_blocks g) /\ cl_start g' = cl_start g /\ cl_return g' = cl_return g
    /\ (forall x b, lookup x (cl_blocks g') = Some b -> unsplit fns ret tags' b).
Proof.
  induction todo as [|x todo IH]; intros g tags ND G C LK TD DN.
  - exists g, tags. cbn [for_each]. split; [reflexivity|]. split; [exact G|]. split; [apply grown_refl|]. split; [apply within_refl|]. split; [exact C|]. split; [exact LK|].
    split; [apply ch_refl|]. do 3 (split; [reflexivity|]). intros x b L. apply (DN x b L). auto.
  - inversion ND as [|? ? N1 N2]; subst. destruct (TD x (or_introl eq_refl)) as (b & L & X & PH & ON & R). cbn [for_each fst snd]. unfold get_block. rewrite L. cbn [of_option bind].
    destruct (insert_block b tags G X PH ON R) as (b' & tags1 & RN & G1 & M1 & W1 & X1 & D1 & K1). rewrite RN. cbn [bind fst snd].
    pose proof (lookup_In_key _ _ _ L) as KX. assert (KS : map fst (cl_blocks (put_block x b' g)) = map fst (cl_blocks g)) by (apply dict_set_same_keys; exact KX).
    destruct (IH (put_block x b' g) tags1 N2 G1) as (g' & tags' & RN' & G' & M' & W' & C' & LK' & AL & KE & ST & RT & XA).
    + destruct K1. eapply consistent_put; eauto.
    + destruct K1. eapply linked_put; eauto.
    + intros y I. destruct (TD y (or_intror I)) as (by' & Ly & Xy & Py & Oy & Ry). exists by'. split; [|split; [assumption|split; [assumption|split; assumption]]]. cbn [put_block cl_blocks]. rewrite lookup_dict_set.
      destruct (String.eqb_spec x y) as [->|]; [contradiction|exact Ly].
    + intros y q. cbn [put_block cl_blocks]. rewrite lookup_dict_set. destruct (String.eqb_spec x y) as [->|NE].
      * intros Q _. injection Q as <-. exact X1.
      * intros Q N. apply (unsplit_tags fns ret tags tags1); [intros; now apply M1|]. apply (DN y q Q). intros [|]; [congruence|contradiction].
    + exists g', tags'. split; [exact RN'|]. split; [exact G'|]. split; [eapply grown_trans; eauto|]. split; [|split; [exact C'|split; [exact LK'|split; [|split; [|split; [|split; [|exact XA]]]]]]].
      * rewrite KS in W'. eapply within_trans; [|exact W']. intros z N. apply W1. intros I. apply N. eapply target_known; eauto.
      * eapply ch_edit; eauto.
      * rewrite KE. exact KS.
      * rewrite ST. reflexivity.
      * rewrite RT. reflexivity.
Qed.

Lemma insert_list g tags : good_tags tags -> consistent g -> linked g ->
  (forall x b, lookup x (cl_blocks g) = Some b -> exit_ok b /\ phis_first (cb_instrs b) /\ once b) -> (cl_return g <> [] -> ret <> None) ->
  exists g' tags', insert_jumps_block_list ret g tags = Ok (g', tags')
    /\ good_tags tags' /\ grown tags tags' /\ within (map fst (cl_blocks g)) tags tags' /\ consistent g' /\ linked g' /\ changed E g g'
    /\ map fst (cl_blocks g') = map fst (cl_blocks g) /\ cl_start g' = cl_start g /\ cl_return g' = cl_return g
    /\ (forall x b, lookup x (cl_blocks g') = Some b -> unsplit fns ret tags' b).
Proof.
  intros G C LK X R. apply insert_loop; auto.
  - apply C.
  - intros x I. destruct (key_lookup _ _ I) as (b & L). exists b. split; [exact L|]. destruct (X x b L) as (X1 & X2 & X3). split; [exact X1|]. split; [exact X2|]. split; [exact X3|]. intros T. apply R. intros Q.
    assert (In x (cl_return g)) as H by (apply (c_return g C); exists b; split; [exact L|left; symmetry; exact T]). rewrite Q in H. destruct H.
  - intros x b L N. exfalso. apply N. exact (lookup_In_key _ _ _ L).
Qed.
End Insert.
