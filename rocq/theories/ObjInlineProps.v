(** C48: inlining the only call of a function keeps what the object does. *)
From Verif Require Import Base Lexical UtilModel UtilProps LiveModel CfgModel CfgSpec CfgProps RemoveProps CombineProps InlineModel InlineProps JumpModel JumpSpec JumpExamples DepsModel SpecSem MachineSpec ObjSem ObjProgram ObjExamples
  ObjRenameSpec ObjRenameProps ObjSsaSpec ObjInlineModel ObjSsa ObjInline.
Open Scope string_scope. Open Scope list_scope.

(** Inlining succeeds, and the result does what the object does, whatever the
    function contains: loops, several exits, no exit, other calls. *)
Theorem inlining_keeps_meaning : forall ob c id pos f k call, object_ok ob -> ssa ob -> only_call ob c id pos f k call ->
  exists ob', inline_call ob c id pos f = Ok ob' /\ lookup f (ob_functions ob') = None /\ carries_over ob ob'.
Proof.
  intros ob c id pos f k call OO SS OC. destruct (oc_here _ _ _ _ _ _ _ OC) as (b & B & NC & _).
  assert (exists g, JumpSpec.component ob c g /\ lookup id (cl_blocks g) = Some b) as (g & K & L).
  { unfold block_at, blocks_at in B. destruct c as [q|]; cbn; [destruct (lookup q (ob_functions ob)) as [kq|]; [|discriminate]; cbn in B; eauto|eauto]. }
  destruct (inline_call_ok ob c id pos f k call g b OO SS OC K L NC) as (ob' & E & H). exists ob'. split; [exact E|]. split; [|exact H].
  unfold inline_call in E. destruct (of_option (lookup f (ob_functions ob))); [|discriminate]. cbn [bind] in E. destruct (get_block_list ob c); [|discriminate]. cbn [bind] in E. destruct (inline_function _ _ _ _); [|discriminate].
  cbn [bind] in E. injection E as <-. unfold pop_function. cbn [ob_functions]. clear. induction (ob_functions _) as [|[q kq] l IH]; [reflexivity|]. cbn [filter fst]. destruct (String.eqb_spec q f) as [->|N]; cbn [negb]; [exact IH|].
  cbn [lookup]. destruct (String.eqb_spec q f); [contradiction|exact IH].
Qed.
Print Assumptions inlining_keeps_meaning.

(* --- concrete cases --- *)
Definition passes (x : string) (l : list linstr) : bool := forallb (fun i => negb (mem x (li_outs i))) l.
Fixpoint unread (x : string) (l : list linstr) : bool := match l with [] => true | i :: l' => negb (mem x (li_ins i)) && (mem x (li_outs i) || unread x l') end.
Definition phis_in (b : cblock) := fst (phis_of (cb_instrs b)).
Definition rest_in (b : cblock) := snd (phis_of (cb_instrs b)).
Definition steps_to (g : clist) (x : string) (b : cblock) (y : string) : bool :=
  mem y (successors b) && match lookup y (cl_blocks g) with Some b' => passes x (phis_in b') | None => false end.
Definition grow (g : clist) (x : string) (S : list string) : list string :=
  filter (fun y => mem y S || existsb (fun kb => mem (fst kb) S && passes x (rest_in (snd kb)) && steps_to g x (snd kb) y) (cl_blocks g)) (map fst (cl_blocks g)).
Fixpoint grown (g : clist) (x : string) (n : nat) (S : list string) : list string := match n with O => S | Datatypes.S m => grown g x m (grow g x S) end.
Definition strictb (g : clist) (x : string) : bool :=
  let R := grown g x (length (cl_blocks g)) (opt_list (cl_start g)) in
  forallb (fun s => mem s R) (opt_list (cl_start g)) &&
  forallb (fun kb => negb (mem (fst kb) R) || (unread x (rest_in (snd kb)) && (negb (passes x (rest_in (snd kb)))
    || (negb (String.eqb (cb_type (snd kb)) "conditional" && opt_eqb (cb_cond (snd kb)) (Some x))
        && forallb (fun y => match lookup y (cl_blocks g) with
             | Some b' => (negb (passes x (phis_in b')) || mem y R)
                          && match index_of (fst kb) (cb_entries b') with
                             | Some k => forallb (fun p => negb (opt_eqb (nth_error (li_ins p) k) (Some x))) (phis_in b')
                             | None => true
                             end
             | None => true end) (successors (snd kb)))))) (cl_blocks g).
Lemma passes_sound x l : passes x l = true <-> forall y, In y [x] -> ~ In y (flat_map li_outs l).
Proof.
  unfold passes. rewrite forallb_forall. split.
  - intros H y [<-|[]] I. apply in_flat_map in I as (i & I1 & I2). apply H, negb_true_iff, mem_false in I1. contradiction.
  - intros H i I. apply negb_true_iff, mem_false. intros J. apply (H x (or_introl eq_refl)). apply in_flat_map. eauto.
Qed.
Lemma strictb_sound g x : NoDup (map fst (cl_blocks g)) -> strictb g x = true -> forall b rest, read_here g b rest x -> ~ reached_without g [x] b rest.
Proof.
  intros ND H. unfold strictb in H. set (R := grown _ _ _ _) in H. clearbody R. apply andb_true_iff in H as (HS & H). rewrite forallb_forall in HS, H.
  assert (INV : forall b rest, reached_without g [x] b rest -> exists blk p, In b R /\ lookup b (cl_blocks g) = Some blk /\ rest_in blk = p ++ rest /\ passes x p = true).
  { intros b rest RW. induction RW as [s blk rest ST L P|b i rest RW IH NX|b blk b' blk' ps rest RW IH L SU L' P NX].
    - exists blk, []. split; [apply mem_In, HS; rewrite ST; now left|]. split; [exact L|]. split; [|reflexivity]. unfold rest_in. now rewrite P.
    - destruct IH as (blk & p & I & L & E & Q). exists blk, (p ++ [i]). split; [exact I|]. split; [exact L|]. split; [now rewrite <- app_assoc|]. unfold passes in *. rewrite forallb_app, Q. cbn. rewrite andb_true_r. apply negb_true_iff, mem_false. apply NX. now left.
    - destruct IH as (blk0 & p & I & L0 & E & Q). rewrite L in L0. injection L0 as <-. exists blk', []. pose proof (H _ (lookup_In _ _ _ L)) as HB. cbn [fst snd] in HB. apply mem_In in I. rewrite I in HB. cbn [negb orb] in HB.
      apply andb_true_iff in HB as (_ & HB). rewrite app_nil_r in E. rewrite E, Q in HB. cbn [negb orb] in HB. apply andb_true_iff in HB as (_ & HB). rewrite forallb_forall in HB. apply HB in SU. rewrite L' in SU. apply andb_true_iff in SU as (SU & _).
      assert (PP : passes x (phis_in blk') = true) by (apply passes_sound; unfold phis_in; rewrite P; exact NX). rewrite PP in SU. cbn in SU. apply mem_In in SU. split; [exact SU|]. split; [exact L'|]. split; [unfold rest_in; now rewrite P|reflexivity]. }
  intros b rest RH RW. destruct (INV b rest RW) as (blk & p & I & L & E & Q). pose proof (H _ (lookup_In _ _ _ L)) as HB. cbn [fst snd] in HB. apply mem_In in I. rewrite I in HB. cbn [negb orb] in HB. apply andb_true_iff in HB as (HU & HB).
  assert (HE : rest = [] -> negb (String.eqb (cb_type blk) "conditional" && opt_eqb (cb_cond blk) (Some x)) = true /\ forall y b' k q, In y (successors blk) -> lookup y (cl_blocks g) = Some b' -> index_of b (cb_entries b') = Some k -> In q (phis_in b') -> nth_error (li_ins q) k <> Some x).
  { intros ->. rewrite app_nil_r in E. rewrite E, Q in HB. cbn [negb orb] in HB. apply andb_true_iff in HB as (H1 & H2). split; [exact H1|]. rewrite forallb_forall in H2. intros y b' k q Iy Ly Ik Iq. apply H2 in Iy. rewrite Ly, Ik in Iy. apply andb_true_iff in Iy as (_ & Iy).
    rewrite forallb_forall in Iy. apply Iy in Iq. intros N. rewrite N in Iq. cbn in Iq. now rewrite String.eqb_refl in Iq. }
  inversion RH as [b0 i r x0 J|b0 blk0 x0 L0 T C|b0 blk0 b' blk' k q x0 L0 S0 L' IX IP NX]; subst.
  - rewrite E in HU. clear -HU Q J. induction p as [|j p IH]; cbn in *.
    + apply andb_true_iff in HU as (HU & _). apply negb_true_iff, mem_false in HU. contradiction.
    + apply andb_true_iff in Q as (Q1 & Q2). apply andb_true_iff in HU as (_ & HU). apply negb_true_iff in Q1. rewrite Q1 in HU. auto.
  - rewrite L in L0. injection L0 as <-. destruct (HE eq_refl) as (HC & _). rewrite T, C in HC. cbn in HC. now rewrite String.eqb_refl in HC.
  - rewrite L in L0. injection L0 as <-. destruct (HE eq_refl) as (_ & HP). exact (HP b' blk' k q S0 L' IX IP NX).
Qed.
Definition defined (ob : cobject) (cg : option string * clist) : list string := arguments ob (fst cg) ++ results (snd cg).
Definition ssab (ob : cobject) : bool :=
  scopedb ob && nodupb (flat_map (defined ob) (components ob)) && nodupb (map fst (ob_functions ob))
  && forallb (fun cg => nodupb (map fst (cl_blocks (snd cg))) && forallb (fun x => negb (startswith "0x" x)) (defined ob cg) && forallb (strictb (snd cg)) (results (snd cg))) (components ob).
Lemma defined_In ob c g x : nodupb (map fst (cl_blocks g)) = true -> JumpSpec.component ob c g -> (defines_at ob c x -> In x (defined ob (c, g))).
Proof.
  intros N K D. unfold defined. cbn [fst snd]. apply in_app_iff. destruct D as [(f & k & -> & L & I)|(b & blk & i & B & I & J)].
  - left. unfold arguments. now rewrite L.
  - right. assert (BC : block_at ob c b = lookup b (cl_blocks g)) by (unfold block_at, blocks_at; clear -K; destruct c as [q|]; cbn in K; [destruct K as (kq & -> & <-); reflexivity|now rewrite K]).
    rewrite BC in B. unfold results. apply in_flat_map. exists (b, blk). split; [now apply lookup_In|]. cbn. apply in_flat_map. eauto.
Qed.
Lemma flat_map_apart {A} (h : A -> list string) l a b x : NoDup (flat_map h l) -> In a l -> In b l -> In x (h a) -> In x (h b) -> a = b.
Proof.
  induction l as [|y l IH]; intros N Ia Ib Xa Xb; [destruct Ia|]. cbn in N. apply NoDup_parts in N as (_ & N & N2).
  destruct Ia as [->|Ia], Ib as [->|Ib]; auto; exfalso; apply (N x); auto; apply in_flat_map; eauto.
Qed.
Lemma ssab_sound ob : ssab ob = true -> ssa ob.
Proof.
  unfold ssab. rewrite !andb_true_iff, forallb_forall. intros (((H1 & H2) & H3) & H4). apply nodupb_sound in H2.
  assert (HC : forall c g, JumpSpec.component ob c g -> nodupb (map fst (cl_blocks g)) = true /\ (forall x, In x (defined ob (c, g)) -> prefix "0x" x = false) /\ (forall x, In x (results g) -> strictb g x = true)).
  { intros c g K. apply component_In, H4 in K. cbn [snd] in K. rewrite !andb_true_iff, !forallb_forall in K. destruct K as ((A & B) & C). split; [exact A|]. split; [intros x I; now apply negb_true_iff, B|exact C]. }
  assert (HK : forall c x, defines_at ob c x -> exists g, JumpSpec.component ob c g).
  { intros c x [(f & k & -> & L & _)|(b & blk & i & B & _)]; [exists (fn_blocks k); exists k; auto|]. unfold block_at, blocks_at in B. destruct c as [q|]; cbn; [|eauto]. destruct (lookup q (ob_functions ob)) as [kq|]; [|discriminate]. eauto. }
  constructor.
  - apply scopedb_sound, H1.
  - intros c g K. apply component_In in K. exact (NoDup_flat_map_in _ _ (c, g) H2 K).
  - intros c1 c2 x D1 D2. destruct (HK _ _ D1) as (g1 & K1). destruct (HK _ _ D2) as (g2 & K2). apply (defined_In ob c1 g1) in D1; [|eapply HC; eauto|exact K1]. apply (defined_In ob c2 g2) in D2; [|eapply HC; eauto|exact K2].
    apply component_In in K1, K2. pose proof (flat_map_apart _ _ _ _ _ H2 K1 K2 D1 D2) as Q. now injection Q.
  - intros c x D. destruct (HK _ _ D) as (g & K). apply (HC c g K), defined_In; auto. apply (HC c g K).
  - intros c g b rest x K RH P NA RW. destruct (HC c g K) as (N & _ & S). apply nodupb_sound in N. refine (strictb_sound g x N (S x _) b rest RH RW).
    assert (BC : forall b, block_at ob c b = lookup b (cl_blocks g)) by (intros b'; unfold block_at, blocks_at; clear -K; destruct c as [q|]; cbn in K; [destruct K as (kq & -> & <-); reflexivity|now rewrite K]).
    assert (RA : (exists blk i, lookup b (cl_blocks g) = Some blk /\ In i (cb_instrs blk) /\ In x (li_ins i)) \/ reads_at ob c x -> In x (results g)).
    { intros [(blk & i & L & I & J)|R].
      - assert (D : defines_at ob c x) by (apply (scopedb_sound ob H1); [exists b, blk; rewrite BC; split; [exact L|left; eauto]|exact P]). apply (defined_In ob c g) in D; [|eapply HC; eauto|exact K]. unfold defined in D. cbn [fst snd] in D. apply in_app_iff in D as [D|D]; [contradiction|exact D].
      - assert (D := scopedb_sound ob H1 c x R P). clear R. rename D into R. apply (defined_In ob c g) in R; [|eapply HC; eauto|exact K]. unfold defined in R. cbn [fst snd] in R. apply in_app_iff in R as [D|D]; [contradiction|exact D]. }
    apply RA. inversion RH as [b0 i r x0 J|b0 blk0 x0 L0 T C|b0 blk0 b' blk' k q x0 L0 S0 L' IX IP NX]; subst.
    + left. destruct (reached_point _ _ _ _ RW) as (blk & L & p & E). exists blk, i. split; [exact L|]. split; [rewrite (phis_of_split (cb_instrs blk)), E; apply in_app_iff; right; apply in_app_iff; right; now left|exact J].
    + right. exists b, blk0. rewrite BC. split; [exact L0|now right].
    + right. exists b', blk'. rewrite BC. split; [exact L'|]. left. exists q. split; [rewrite (phis_of_split (cb_instrs blk')); apply in_app_iff; now left|eapply nth_error_In; eauto].
Qed.

Definition only_callb (ob : cobject) (c : option string) (id : string) (pos : nat) (f : string) (k : JumpModel.cfun) (call : linstr) : bool :=
  negb (opt_eqb c (Some f)) && String.eqb (li_op call) f && Nat.eqb (length (fn_args k)) (length (li_ins call))
  && forallb (fun x => negb (mem x (li_ins call))) (li_outs call)
  && nodupb (cl_return (fn_blocks k))
  && forallb (fun kb => forallb (fun i => negb (String.eqb (li_op i) "functionReturn") || Nat.eqb (length (li_ins i)) (length (li_outs call))) (cb_instrs (snd kb))
                        && (negb (mem (fst kb) (cl_return (fn_blocks k))) || opt_eqb (cb_cond (snd kb)) None)) (cl_blocks (fn_blocks k))
  && forallb (fun cg => forallb (fun kb => forallb (fun ni => negb (String.eqb (li_op (snd ni)) f) || (opt_eqb (fst cg) c && String.eqb (fst kb) id && Nat.eqb (fst ni) pos))
                                   (combine (seq 0 (length (cb_instrs (snd kb)))) (cb_instrs (snd kb)))) (cl_blocks (snd cg))) (components ob).
Lemma numbered {A} (l : list A) : forall n m x, nth_error l m = Some x -> In (n + m, x) (combine (seq n (length l)) l).
Proof.
  induction l as [|y l IH]; intros n [|m] x H; try discriminate; cbn in *; [injection H as ->; left; f_equal; lia|]. right. replace (n + S m) with (S n + m) by lia. auto.
Qed.
Lemma only_callb_sound ob c id pos f k call blk : lookup f (ob_functions ob) = Some k -> block_at ob c id = Some blk -> nth_error (cb_instrs blk) pos = Some call ->
  only_callb ob c id pos f k call = true -> only_call ob c id pos f k call.
Proof.
  intros LF B N. unfold only_callb. rewrite !andb_true_iff, !forallb_forall. intros ((((((H1 & H2) & H3) & H4) & H5) & H6) & H7). apply String.eqb_eq in H2.
  assert (HB : forall b' blk', lookup b' (cl_blocks (fn_blocks k)) = Some blk' -> (forall i, In i (cb_instrs blk') -> li_op i = "functionReturn" -> length (li_ins i) = length (li_outs call)) /\ (In b' (cl_return (fn_blocks k)) -> cb_cond blk' = None)).
  { intros b' blk' L. apply lookup_In, H6 in L. cbn [fst snd] in L. apply andb_true_iff in L as (A & C). rewrite forallb_forall in A. split.
    - intros i I O. apply A in I. rewrite O in I. now apply Nat.eqb_eq in I.
    - intros I. apply mem_In in I. rewrite I in C. cbn in C. now apply opt_eqb_eq. }
  constructor.
  - exact LF.
  - intros ->. now rewrite (proj2 (opt_eqb_eq (Some f) (Some f)) eq_refl) in H1.
  - exists blk. auto.
  - intros c' b' blk' n i B' N' O. assert (exists g, JumpSpec.component ob c' g /\ lookup b' (cl_blocks g) = Some blk') as (g & K & L).
    { unfold block_at, blocks_at in B'. destruct c' as [q|]; cbn; [destruct (lookup q (ob_functions ob)) as [kq|]; [|discriminate]; cbn in B'; eauto|eauto]. }
    apply component_In, H7 in K. cbn [fst snd] in K. rewrite forallb_forall in K. apply lookup_In, K in L. cbn [fst snd] in L. rewrite forallb_forall in L. specialize (L _ (numbered _ 0 n i N')). cbn [fst snd] in L.
    rewrite O, String.eqb_refl in L. cbn [negb orb] in L. rewrite !andb_true_iff in L. destruct L as ((L1 & L2) & L3). apply opt_eqb_eq in L1. apply String.eqb_eq in L2. apply Nat.eqb_eq in L3. auto.
  - now apply Nat.eqb_eq.
  - intros b' blk' i B' I O. unfold block_at, blocks_at in B'. rewrite LF in B'. cbn [option_map] in B'. eapply HB; eauto.
  - intros x I. now apply mem_false, negb_true_iff, H4.
  - split; [now apply nodupb_sound|]. intros x blk' I L. eapply HB; eauto.
Qed.

(** The object of ObjExamples.v: its loop calls a function with one exit, which
    calls a function without exit. *)
Example count_ssa : ssa count_object.
Proof. apply ssab_sound. vm_compute. reflexivity. Qed.
Definition the_function (ob : cobject) (f : string) : JumpModel.cfun := match lookup f (ob_functions ob) with Some k => k | None => {| fn_args := []; fn_blocks := ob_main ob |} end.
Definition the_block (ob : cobject) (c : option string) (b : string) : cblock := match block_at ob c b with Some blk => blk | None => new_block [] "" end.
Example count_call : only_call count_object None "B" 0 "next_2" (the_function count_object "next_2") (ins "next_2" ["i"; "n"] ["j"]).
Proof. apply (only_callb_sound _ _ _ _ _ _ _ (the_block count_object None "B")); vm_compute; reflexivity. Qed.
Example count_inlined_stops : exists ob' w, inline_call count_object None "B" 0 "next_2" = Ok ob' /\ map fst (ob_functions ob') = ["fail_1"]
  /\ stops (machine_words ints nonzero zero) ob' (fun _ => []) "STOP" [] w /\ w tt = [(2, 7); (1, 2); (0, 1)]%Z.
Proof.
  destruct (inlining_keeps_meaning _ _ _ _ _ _ _ (proj1 count_ok) count_ssa count_call) as (ob' & E & _ & H). destruct count_stops as (w & S & Q). exists ob', w.
  split; [exact E|]. split; [vm_compute in E; injection E as <-; reflexivity|]. split; [|exact Q]. exact (proj1 (H Z _ _ machine_words_by_operation (fun _ => [])) _ _ _ S).
Qed.
(** A function with a loop and two exits; one returns an argument, the other a
    result. *)
Definition pick_object : cobject := {|
  ob_main := parsed
    [ jmp "E" "H" [ins "calldataload" ["0x00"] ["n"]];
      joined ["E"; "B"] (cnd "H" "c" "X" "B" [ins "PhiFunction" ["0x00"; "j"] ["i"]; ins "lt" ["i"; "n"] ["c"]]);
      jmp "B" "H" [ins "pick_2" ["i"; "n"] ["p"; "j"]; ins "sstore" ["i"; "p"] []];
      fin "X" [ins "sstore" ["i"; "0x07"] []] ];
  ob_functions :=
    [ ("pick_2", {| fn_args := ["y"; "x"]; fn_blocks := parsed
        [ jmp "pick_Block0" "pick_Block1" [];
          joined ["pick_Block0"; "pick_Block2"] (cnd "pick_Block1" "d" "pick_Block3" "pick_Block2" [ins "PhiFunction" ["0x00"; "u"] ["t"]; ins "lt" ["t"; "x"] ["d"]]);
          jmp "pick_Block2" "pick_Block1" [ins "add" ["t"; "0x01"] ["u"]];
          cnd "pick_Block3" "q" "pick_Block4" "pick_Block5" [ins "add" ["t"; "0x01"] ["z"]; ins "lt" ["z"; "y"] ["q"]];
          ret "pick_Block4" ["x"; "z"] [];
          ret "pick_Block5" ["y"; "z"] [] ] |}) ] |}.
Example pick_ok : object_ok pick_object /\ ssa pick_object.
Proof. split; [apply object_okb_sound|apply ssab_sound]; vm_compute; reflexivity. Qed.
Example pick_inlined_stops : exists ob' w, inline_call pick_object None "B" 0 "pick_2" = Ok ob' /\ ob_functions ob' = []
  /\ stops (machine_words ints nonzero zero) ob' (fun _ => []) "STOP" [] w /\ w tt = [(2, 7); (1, 1); (0, 2)]%Z.
Proof.
  assert (OC : only_call pick_object None "B" 0 "pick_2" (the_function pick_object "pick_2") (ins "pick_2" ["i"; "n"] ["p"; "j"])) by (apply (only_callb_sound _ _ _ _ _ _ _ (the_block pick_object None "B")); vm_compute; reflexivity).
  destruct (inlining_keeps_meaning _ _ _ _ _ _ _ (proj1 pick_ok) (proj2 pick_ok) OC) as (ob' & E & _ & H).
  assert (S : exists w, stops (machine_words ints nonzero zero) pick_object (fun _ => []) "STOP" [] w /\ w tt = [(2, 7); (1, 1); (0, 2)]%Z) by (eexists; split; [eexists _, 34; split; [vm_compute; reflexivity|vm_compute; reflexivity]|reflexivity]).
  destruct S as (w & S & Q). exists ob', w. split; [exact E|]. split; [vm_compute in E; injection E as <-; reflexivity|]. split; [|exact Q]. exact (proj1 (H Z _ _ machine_words_by_operation (fun _ => [])) _ _ _ S).
Qed.

(** When the caller and the function share a name, the value of the caller is
    lost: variables are renamed before the inlining for this reason. *)
Definition shared_object : cobject := {|
  ob_main := parsed [ fin "E" [ins "calldataload" ["0x00"] ["x"]; ins "one_0" [] ["r"]; ins "sstore" ["x"; "r"] []] ];
  ob_functions := [ ("one_0", {| fn_args := []; fn_blocks := parsed [ ret "one_Block0" ["x"] [ins "add" ["0x01"; "0x02"] ["x"]] ] |}) ] |}.
Theorem inlining_shared_names_refuted : ~ (forall ob c id pos f k call, object_ok ob -> scoped ob -> only_call ob c id pos f k call -> exists ob', inline_call ob c id pos f = Ok ob' /\ carries_over ob ob').
Proof.
  intros H. destruct (H shared_object None "E" 1 "one_0" (the_function shared_object "one_0") (ins "one_0" [] ["r"])) as (ob' & E & C).
  - apply object_okb_sound. vm_compute. reflexivity.
  - apply scopedb_sound. vm_compute. reflexivity.
  - apply (only_callb_sound _ _ _ _ _ _ _ (the_block shared_object None "E")); vm_compute; reflexivity.
  - assert (S : exists w, stops (machine_words ints nonzero zero) shared_object (fun _ => []) "STOP" [] w /\ w tt = [(2, 3)]%Z).
    { eexists. split; [eexists _, 6; split; [vm_compute; reflexivity|vm_compute; reflexivity]|reflexivity]. }
    destruct S as (w & S & Q). apply (proj1 (C Z _ _ machine_words_by_operation (fun _ => []))) in S. destruct S as (s & n & B & R). vm_compute in E. injection E as <-. vm_compute in B. injection B as <-.
    assert (W : match osteps (machine_words ints nonzero zero) n _ _ with Some (Done _ _ w) => w tt | _ => [] end = [(2, 3)]%Z) by (rewrite R; exact Q). clear R Q.
    do 8 (destruct n as [|n]; [vm_compute in W; discriminate|]). cbn in W. discriminate.
Qed.
