(** C50: the passes from the parsed object to the object whose blocks are
    compiled, one after the other. *)
From Verif Require Import Base Lexical SymExecModel MachineSpec DepsModel SpecSem UtilModel UtilProps LiveModel CfgModel CfgSpec CfgProps RemoveProps CombineProps RenameModel JumpModel ProgSem JumpSpec JumpExamples CombineModel
  ObjCombineSpec ObjCombineProps ObjCombineExamples ObjSem ObjProgram ObjExamples ObjRenameModel ObjRenameSpec ObjRenameProps ObjSsaSpec ObjInlineModel ObjSsa ObjDriverSpec ObjInlineProps InlineDriverModel ObjDriver ObjDriverProps
  ObjLayoutSpec ConstModel ConstSpec ConstProps PhiArity ObjFrontModel ObjFront.
Open Scope string_scope. Open Scope list_scope.

Lemma combine_names so fns (fs : list (string * cfun)) : forall acc (fs' : list (string * cfun)), for_each (fun acc nf =>
      do g <- combine_remove_block_list so fns (fn_blocks (snd nf)); Ok (acc ++ [(fst nf, {| fn_args := fn_args (snd nf); fn_blocks := g |})])) fs acc = Ok fs' -> map fst fs' = map fst acc ++ map fst fs.
Proof.
  induction fs as [|(f, k) fs IH]; intros acc fs' H; cbn [for_each] in H; [injection H as <-; cbn; now rewrite app_nil_r|]. cbn [fst snd] in H. destruct (combine_remove_block_list so fns (fn_blocks k)) as [g|]; [|discriminate]. cbn [bind] in H.
  apply IH in H. rewrite H, map_app, <- app_assoc. reflexivity.
Qed.
Lemma functions_kept so ob1 ob2 : combine_remove_object so ob1 = Ok ob2 -> map fst (ob_functions ob2) = map fst (ob_functions ob1).
Proof.
  unfold combine_remove_object, combine_remove_functions. destruct (combine_remove_block_list so (map fst (ob_functions ob1)) (ob_main ob1)) as [m|]; [|discriminate]. cbn [bind].
  destruct (for_each _ (ob_functions ob1) []) as [fs|] eqn:E; [|discriminate]. cbn [bind]. intros H. injection H as <-. apply combine_names in E. exact E.
Qed.

(** The nodes of the trees given are blocks. *)
Definition trees_of_blocks (trees : cobject -> option string -> tree) : Prop :=
  forall ob c g x, JumpSpec.component ob c g -> consistent g -> in_tree x (trees ob c) -> In x (map fst (cl_blocks g)).

(** The passes succeed.  The functions called once are gone, the others are kept,
    and the program that is produced stops with the operation, arguments and
    world with which the object given stops, and runs forever when it does. *)
Theorem preprocess_keeps_meaning_partial : forall split_ops order trees ob, source_ok ob -> inlining_order ob order -> (forall f, called_once ob f -> ~ calls ob f f) ->
  trees_of_blocks trees ->
  exists ob' tags, preprocess split_ops order trees ob = Ok (ob', tags)
    /\ (forall f, In f (map fst (ob_functions ob')) <-> In f (map fst (ob_functions ob)) /\ ~ called_once ob f)
    /\ forall (V Loc LV : Type) (sem : semantics V Loc LV) truth blank e w,
        let p := program_of ob' in
        let start := Run None None (k_start (g_main p)) e w [] in
        (forall op args w', stops (machine_words sem truth blank) ob w op args w' -> exists n, csteps sem truth blank n p start = Some (Halt op args w'))
        /\ (goes_on (machine_words sem truth blank) ob w -> forall n, exists c from b e' w' frames, csteps sem truth blank n p start = Some (Run c from b e' w' frames)).
Proof.
  intros so order trees ob SO IO NR TB.
  destruct (all_inlined (rename_variables ob) order (ren_object ob SO) (ren_ssa ob SO) (ren_calls ob SO) (ren_order ob order IO)) as (ob1 & E1 & CO & FN & OO1 & SS1 & CA1 & LO1 & NA1).
  { intros f O C. apply (ren_once ob) in O. apply (ren_calls_calls ob) in C. exact (NR f O C). }
  specialize (LO1 (ren_layout ob SO)). destruct (ready ob1 OO1 SS1 CA1 LO1) as (RD & CM & SP).
  destruct (combine_and_jumps_keep_meaning_partial so ob1 OO1 RD CM SP) as (ob2 & ob' & tags & E2 & E3 & H).
  destruct (combined_object_ok_partial so ob1 OO1 RD CM SP) as (ob3 & E4 & OO3 & _). rewrite E2 in E4. injection E4 as <-.
  destruct (placed_phis ob2 ob' tags OO3 E3) as (PM & ND & CS). { apply (combine_phis so ob1 ob2 CM E2). intros c g K x b i L I. exact (lo_arity ob1 LO1 c g x b i K L I). }
  exists ob', tags. split; [unfold preprocess; rewrite E1; cbn [bind]; rewrite E2; cbn [bind]; rewrite E3; cbn [bind fst snd]; rewrite (constants_unchanged (trees ob') ob' ND PM (fun c g x K => TB ob' c g x K (CS c g K))); reflexivity|]. split.
  - destruct (JumpProps.jumps_and_calls_placed_partial ob2 OO3) as (ob4 & tags4 & E5 & _ & NM & _). rewrite E3 in E5. injection E5 as <- <-.
    intros f. rewrite NM, (functions_kept so ob1 ob2 E2), FN, (ren_fns ob). split; intros (A & B); (split; [exact A|]); intros C; apply B; now apply (ren_once ob).
  - intros V Loc LV sem truth blank e w. cbv zeta. destruct (H V Loc LV sem truth blank e w) as (H1 & H2).
    destruct (renaming_keeps_meaning ob (so_scoped _ SO) (source_tagless ob SO) V _ (machine_words sem truth blank) machine_words_by_operation w) as (R1 & R2). destruct (CO V _ (machine_words sem truth blank) machine_words_by_operation w) as (C1 & C2). split.
    + intros op args w' S. apply H1, C1, R1, S.
    + intros S. apply H2, C2, R2, S.
Qed.
Print Assumptions preprocess_keeps_meaning_partial.

(* --- concrete cases --- *)
Definition endsb (ob : cobject) : bool :=
  forallb (fun fk => let g := fn_blocks (snd fk) in
    forallb (fun kb => negb (isnil (cb_instrs (snd kb)) && isnil (successors (snd kb)))
                       || negb (opt_eqb (cl_start g) (Some (fst kb))) && forallb (fun kb' => negb (mem (fst kb) (successors (snd kb')))) (cl_blocks g)) (cl_blocks g)) (ob_functions ob).
Definition sourceb (ob : cobject) : bool :=
  object_okb ob && combinableb ob && separableb ob && readableb ob && calls_okb ob && endsb ob && scopedb ob
  && forallb (fun cg => nodupb (map fst (cl_blocks (snd cg))) && nodupb (defined ob cg) && forallb (fun x => negb (startswith "0x" x)) (defined ob cg) && forallb (strictb (snd cg)) (results (snd cg))
    && forallb (fun kb => forallb (fun i => negb (phib i) || Nat.eqb (length (li_ins i)) (length (cb_entries (snd kb)))) (cb_instrs (snd kb))) (cl_blocks (snd cg))) (components ob).
Lemma sourceb_sound ob : sourceb ob = true -> source_ok ob.
Proof.
  unfold sourceb. rewrite !andb_true_iff. intros (((((((OO & CM) & SP) & RD) & CA) & EN) & SC) & H). apply object_okb_sound in OO. apply combinableb_sound in CM. apply separableb_sound in SP. apply readableb_sound in RD. apply calls_okb_sound in CA.
  apply scopedb_sound in SC. rewrite forallb_forall in H.
  assert (HC : forall c g, JumpSpec.component ob c g -> nodupb (map fst (cl_blocks g)) = true /\ NoDup (arguments ob c ++ results g) /\ (forall x, In x (defined ob (c, g)) -> prefix "0x" x = false) /\ (forall x, In x (results g) -> strictb g x = true)
    /\ forall x b i, In (x, b) (cl_blocks g) -> In i (cb_instrs b) -> li_op i = "PhiFunction" -> length (li_ins i) = length (cb_entries b)).
  { intros c g K. apply component_In, H in K. cbn [snd] in K. rewrite !andb_true_iff in K. destruct K as ((((A & N) & B) & C) & D). rewrite forallb_forall in B, C, D. split; [exact A|]. split; [now apply nodupb_sound|]. split; [intros x I; now apply negb_true_iff, B|]. split; [exact C|].
    intros x b i I J P. specialize (D _ I). cbn [snd] in D. rewrite forallb_forall in D. specialize (D _ J). unfold phib in D. rewrite P in D. now apply Nat.eqb_eq. }
  assert (BK : forall c b blk, block_at ob c b = Some blk -> exists g, JumpSpec.component ob c g /\ lookup b (cl_blocks g) = Some blk) by (intros c b blk B; now apply block_component).
  constructor.
  - exact OO.
  - split.
    + intros c g x b K L. apply (MergePassProps.t_conds g (cm_tidy _ CM c g K) x b L).
    + apply CM.
    + apply CM.
    + apply CM.
    + apply CM.
    + apply SP.
    + apply SP.
    + apply RD.
    + intros f g x b (k & LF & <-) L I S. unfold endsb in EN. rewrite forallb_forall in EN. apply lookup_In, EN in LF. cbn [snd] in LF. rewrite forallb_forall in LF. apply lookup_In, LF in L. cbn [fst snd] in L. rewrite I, S in L. cbn [isnil andb negb orb] in L.
      apply andb_true_iff in L as (L1 & L2). split.
      * intros Q. rewrite Q in L1. cbn in L1. rewrite String.eqb_refl in L1. discriminate.
      * intros y E. destruct E as (b' & L' & TO). rewrite forallb_forall in L2. apply lookup_In, L2 in L'. cbn [snd] in L'. apply negb_true_iff, mem_false in L'. apply L'. unfold successors. apply in_app_iff. destruct TO as [-> | ->]; [left|right]; now left.
    + intros c x (b & blk & B & R) P. apply BK in B as (g & K & L). destruct R as [(i & I & J)|C]; [exact (or_literals _ RD c g b blk i x K L I J P)|exact (or_conds _ RD c g b blk x K L C P)].
    + apply RD.
    + intros c g x b i K L. apply (proj2 (proj2 (proj2 (proj2 (HC c g K)))) x b i). now apply lookup_In.
    + apply RD.
  - exact SC.
  - intros c g K. apply (HC c g K).
  - intros c x D. assert (exists g, JumpSpec.component ob c g) as (g & K) by (destruct D as [(f & k & -> & L & _)|(b & blk & i & B & _)]; [exists (fn_blocks k), k; auto|apply BK in B as (g & K & _); eauto]).
    apply (HC c g K), defined_In; auto. apply (HC c g K).
  - intros c g b rest x K RH P NA RW. destruct (HC c g K) as (N & _ & _ & S & _). refine (strictb_sound g x (nodupb_sound _ N) (S x _) b rest RH RW).
    assert (D : defines_at ob c x). { apply SC; [|exact P]. eapply read_reads; [exact K|exact RH|]. eapply reached_inside; exact RW. }
    apply (defined_In ob c g) in D; [|exact N|exact K]. unfold defined in D. cbn [fst snd] in D. apply in_app_iff in D as [D|D]; [contradiction|exact D].
  - apply CA.
  - apply CA.
  - apply CA.
  - apply CA.
Qed.

(** The functions use names of the main code.  [next_2] and [fail_1] are inlined;
    [twice_1], called twice, is kept. *)
Definition reused_object : cobject := {|
  ob_main := parsed
    [ jmp "E" "H" [ins "calldataload" ["0x00"] ["n"]];
      joined ["E"; "D"] (cnd "H" "c" "X" "B" [ins "PhiFunction" ["0x00"; "j"] ["i"]; ins "lt" ["i"; "n"] ["c"]]);
      jmp "B" "D" [ins "next_2" ["i"; "n"] ["j"]; ins "twice_1" ["j"] ["k"]];
      jmp "D" "H" [ins "sstore" ["i"; "k"] []];
      fin "X" [ins "twice_1" ["i"] ["j2"]; ins "sstore" ["j2"; "0x07"] []] ];
  ob_functions :=
    [ ("twice_1", {| fn_args := ["n"]; fn_blocks := parsed [ ret "twice_Block0" ["i"] [ins "add" ["n"; "n"] ["i"]] ] |});
      ("next_2", {| fn_args := ["n"; "i"]; fn_blocks := parsed
        [ cnd "next_Block0" "c" "next_Block2" "next_Block1" [ins "lt" ["i"; "n"] ["c"]];
          ret "next_Block1" ["j"] [ins "add" ["i"; "0x01"] ["j"]];
          trm "next_Block2" [ins "fail_1" ["i"] []] ] |});
      ("fail_1", {| fn_args := ["i"]; fn_blocks := parsed [ trm "fail_Block0" [ins "revert" ["0x00"; "i"] []] ] |}) ] |}.
Definition reused_order : list string := ["fail_1"; "twice_1"; "next_2"].
Example reused_ok : source_ok reused_object /\ inlining_order reused_object reused_order /\ (forall f, called_once reused_object f -> ~ calls reused_object f f).
Proof.
  assert (SO : source_ok reused_object) by (apply sourceb_sound; vm_compute; reflexivity). split; [exact SO|]. split; [apply (orderb_sound _ _ (fun _ _ => false) (so_object _ SO)); [discriminate|vm_compute; reflexivity]|].
  intros f _ C. apply (ranked_calls _ (rank_in reused_order)) in C; [lia|vm_compute; reflexivity].
Qed.
Example reused_stops : exists w, stops (machine_words ints nonzero zero) reused_object (fun _ => []) "STOP" [] w /\ w tt = [(4, 7); (1, 4); (0, 2)]%Z.
Proof. eexists. split; [eexists _, 35; split; [vm_compute; reflexivity|vm_compute; reflexivity]|reflexivity]. Qed.
Definition start_trees (ob : cobject) (c : option string) : tree :=
  Node (match blocks_at ob c with Some g => match cl_start g with Some s => s | None => "" end | None => "" end) [].
Lemma start_trees_ok : trees_of_blocks start_trees.
Proof.
  intros ob c g x K C I. unfold start_trees in I. apply ObjErase.blocks_component in K. rewrite K in I. destruct (c_start g C) as (s & S & J). rewrite S in I. inversion I; subst; [exact J|]. contradiction.
Qed.
Example reused_program_stops : exists ob' tags w n, preprocess [] reused_order start_trees reused_object = Ok (ob', tags) /\ map fst (ob_functions ob') = ["twice_1"]
  /\ csteps ints nonzero zero n (program_of ob') (Run None None (k_start (g_main (program_of ob'))) zero (fun _ => []) []) = Some (Halt "STOP" [] w)
  /\ w tt = [(4, 7); (1, 4); (0, 2)]%Z.
Proof.
  destruct reused_ok as (A & B & C). destruct (preprocess_keeps_meaning_partial [] reused_order start_trees reused_object A B C start_trees_ok) as (ob' & tags & E & _ & P). destruct reused_stops as (w & S & Q).
  destruct (proj1 (P Z unit (list (Z * Z)) ints nonzero zero zero (fun _ => [])) _ _ _ S) as (n & K). exists ob', tags, w, n. split; [exact E|]. split; [|auto]. vm_compute in E. injection E as <- <-. reflexivity.
Qed.
