(** C49: inlining every function that is called once keeps what the object does. *)
From Verif Require Import Base Lexical UtilModel UtilProps LiveModel CfgModel CfgSpec CfgProps RemoveProps CombineProps InlineModel JumpModel JumpSpec JumpExamples DepsModel SpecSem MachineSpec ObjSem ObjProgram ObjExamples
  ObjRenameSpec ObjRenameProps ObjSsaSpec ObjInlineModel ObjSsa ObjDriverSpec ObjInline ObjInlineProps InlineDriverModel ObjDriver.
Open Scope string_scope. Open Scope list_scope.

(** The pass succeeds: it finds every call in the blocks into which the earlier
    ones have split its block.  The result does what the object does, the
    functions called once are gone and the others are kept, and the result meets
    the conditions under which the later passes are correct. *)
Theorem inline_functions_keeps_meaning : forall ob order, object_ok ob -> ssa ob -> calls_ok ob -> inlining_order ob order -> (forall f, called_once ob f -> ~ calls ob f f) ->
  exists ob', inline_functions order ob = Ok ob' /\ carries_over ob ob'
  /\ (forall f, In f (map fst (ob_functions ob')) <-> In f (map fst (ob_functions ob)) /\ ~ called_once ob f)
  /\ object_ok ob' /\ ssa ob' /\ calls_ok ob'.
Proof.
  intros ob order OO SS CA IO NR. destruct (all_inlined ob order OO SS CA IO NR) as (ob' & E & CO & FN & OO' & SS' & CA' & _). exists ob'. auto 7.
Qed.
Print Assumptions inline_functions_keeps_meaning.

(* --- concrete cases --- *)
Definition reach_step (g : clist) (R : list string) : list string :=
  R ++ flat_map (fun kb => if mem (fst kb) R then filter (fun y => mem y (map fst (cl_blocks g))) (successors (snd kb)) else []) (cl_blocks g).
Fixpoint reach (g : clist) (n : nat) (R : list string) : list string := match n with O => R | S m => reach g m (reach_step g R) end.
Definition reach_start (g : clist) : list string :=
  match cl_start g with
  | Some s => match lookup s (cl_blocks g) with Some b => match phis_in b with [] => [s] | _ => [] end | None => [] end
  | None => []
  end.
Definition reachedb (g : clist) : bool :=
  let R := reach g (length (cl_blocks g)) (reach_start g) in
  forallb (fun kb => (match cb_instrs (snd kb), successors (snd kb) with [], [] => true | _, _ => false end) || mem (fst kb) R) (cl_blocks g).
Lemma reach_sound g : NoDup (map fst (cl_blocks g)) -> forall n R, (forall b blk, In b R -> lookup b (cl_blocks g) = Some blk -> reached_without g [] b (rest_in blk)) ->
  forall b blk, In b (reach g n R) -> lookup b (cl_blocks g) = Some blk -> reached_without g [] b (rest_in blk).
Proof.
  intros ND. induction n as [|n IH]; intros R H; [exact H|]. cbn [reach]. apply IH. intros b blk I L. unfold reach_step in I. apply in_app_iff in I as [I|I]; [now apply H|]. apply in_flat_map in I as ((a & ba) & Ia & I). cbn [fst snd] in I.
  destruct (mem a R) eqn:M; [|destruct I]. apply mem_In in M. apply filter_In in I as (I & _). apply (JumpProps.dict_In _ _ _ ND) in Ia. pose proof (H a ba M Ia) as Ra.
  assert (E : reached_without g [] a []). { revert Ra. generalize (rest_in ba). induction l as [|i l IHl]; [auto|]. intros Q. apply IHl. eapply rw_instr; [exact Q|]. intros x []. }
  eapply (rw_edge g [] a ba b blk (phis_in blk)); eauto. unfold phis_in, rest_in. now destruct (phis_of (cb_instrs blk)).
Qed.
Definition stuckb (ob : cobject) (cg : option string * clist) (blk : cblock) : bool :=
  forallb (fun ni => match lookup (li_op (snd ni)) (ob_functions ob) with
    | Some k => match cl_return (fn_blocks k) with
                | [] => Nat.eqb (S (fst ni)) (length (cb_instrs blk)) && (match successors blk with [] => true | _ => false end)
                        && forallb (fun y => forallb (fun kb => forallb (fun i => negb (mem y (li_ins i))) (cb_instrs (snd kb)) && negb (opt_eqb (cb_cond (snd kb)) (Some y))) (cl_blocks (snd cg))) (li_outs (snd ni))
                | _ => true
                end
    | None => true
    end) (combine (seq 0 (length (cb_instrs blk))) (cb_instrs blk)).
Definition arityb (ob : cobject) (i : linstr) : bool :=
  match lookup (li_op i) (ob_functions ob) with
  | Some k => Nat.eqb (length (fn_args k)) (length (li_ins i))
      && forallb (fun kb => forallb (fun r => negb (String.eqb (li_op r) "functionReturn") || Nat.eqb (length (li_ins r)) (length (li_outs i))) (cb_instrs (snd kb))) (cl_blocks (fn_blocks k))
  | None => true
  end.
Definition calls_okb (ob : cobject) : bool :=
  forallb (fun cg => nodupb (map fst (cl_blocks (snd cg))) && nodupb (cl_return (snd cg)) && reachedb (snd cg)
    && forallb (fun x => negb (numeral x) && forallb (fun f => negb (String.eqb x ("out_" ++ f))) (map fst (ob_functions ob))) (defined ob cg)
    && forallb (fun kb => forallb (arityb ob) (cb_instrs (snd kb)) && stuckb ob cg (snd kb) && (negb (mem (fst kb) (cl_return (snd cg))) || opt_eqb (cb_cond (snd kb)) None)) (cl_blocks (snd cg))) (components ob).
Lemma calls_okb_sound ob : calls_okb ob = true -> calls_ok ob.
Proof.
  unfold calls_okb. rewrite forallb_forall. intros H.
  assert (HC : forall c g, JumpSpec.component ob c g -> NoDup (map fst (cl_blocks g)) /\ NoDup (cl_return g) /\ reachedb g = true
    /\ (forall x, In x (defined ob (c, g)) -> numeral x = false /\ forall f, In f (map fst (ob_functions ob)) -> x <> ("out_" ++ f)%string)
    /\ (forall b blk, lookup b (cl_blocks g) = Some blk -> (forall i, In i (cb_instrs blk) -> arityb ob i = true) /\ stuckb ob (c, g) blk = true /\ (In b (cl_return g) -> cb_cond blk = None))).
  { intros c g K. apply component_In, H in K. cbn [snd] in K. rewrite !andb_true_iff, !forallb_forall in K. destruct K as ((((A & B) & C) & D) & E). split; [now apply nodupb_sound|]. split; [now apply nodupb_sound|]. split; [exact C|]. split.
    - intros x I. apply D in I. apply andb_true_iff in I as (I1 & I2). split; [now apply negb_true_iff|]. intros f If Q. rewrite forallb_forall in I2. apply I2 in If. apply negb_true_iff in If. apply String.eqb_neq in If. contradiction.
    - intros b blk L. apply lookup_In, E in L. cbn [fst snd] in L. rewrite !andb_true_iff, forallb_forall in L. destruct L as ((L1 & L2) & L3). split; [exact L1|]. split; [exact L2|]. intros I. apply mem_In in I. rewrite I in L3. now apply opt_eqb_eq. }
  constructor.
  - intros c b blk i k B I L. apply block_component in B as (g & K & Lb). destruct (HC c g K) as (_ & _ & _ & _ & Q). destruct (Q b blk Lb) as (A & _). apply A in I. unfold arityb in I. rewrite L in I. rewrite andb_true_iff, forallb_forall in I. destruct I as (I1 & I2). split; [now apply Nat.eqb_eq|].
    intros b' blk' r B' Ir O. unfold block_at, blocks_at in B'. rewrite L in B'. cbn [option_map] in B'. apply lookup_In, I2 in B'. rewrite forallb_forall in B'. apply B' in Ir. rewrite O in Ir. now apply Nat.eqb_eq in Ir.
  - intros c g K. destruct (HC c g K) as (_ & N & _ & _ & Q). split; [exact N|]. intros x blk I L. destruct (Q x blk L) as (_ & _ & C). auto.
  - intros c b blk p i q k B E L R. apply block_component in B as (g & K & Lb). destruct (HC c g K) as (_ & _ & _ & _ & Q). destruct (Q b blk Lb) as (_ & S & _). unfold stuckb in S. rewrite forallb_forall in S.
    assert (N : nth_error (cb_instrs blk) (length p) = Some i) by (rewrite E, nth_error_app2, Nat.sub_diag by lia; reflexivity). specialize (S _ (numbered _ 0 _ _ N)). cbn [fst snd plus] in S. rewrite L, R in S. rewrite !andb_true_iff, forallb_forall in S. destruct S as ((S1 & S2) & S3).
    split; [apply Nat.eqb_eq in S1; rewrite E, app_length in S1; cbn [length] in S1; destruct q; [reflexivity|cbn in S1; lia]|]. split; [now destruct (successors blk)|]. intros y Iy (b' & blk' & B' & RD). apply S3 in Iy. rewrite forallb_forall in Iy. apply block_component in B' as (g' & K' & L').
    assert (g' = g) by (clear -K K'; destruct c; cbn in *; [destruct K as (? & ? & <-), K' as (? & ? & <-); congruence|congruence]). subst g'. apply lookup_In, Iy in L'. cbn [snd] in L'. rewrite andb_true_iff, forallb_forall in L'. destruct L' as (A1 & A2). destruct RD as [(j & J1 & J2)|RD].
    + apply A1, negb_true_iff, mem_false in J1. contradiction.
    + rewrite RD in A2. rewrite (proj2 (opt_eqb_eq (Some y) (Some y)) eq_refl) in A2. discriminate.
  - intros c g b blk K L NE. destruct (HC c g K) as (ND & _ & R & _). unfold reachedb in R. rewrite forallb_forall in R. pose proof (R _ (lookup_In _ _ _ L)) as Rb. cbn [fst snd] in Rb.
    assert (M : mem b (reach g (length (cl_blocks g)) (reach_start g)) = true) by (destruct (cb_instrs blk), (successors blk); cbn in Rb; auto; destruct NE as [N|N]; congruence). apply mem_In in M.
    refine (reach_sound g ND _ (reach_start g) _ b blk M L). intros b0 blk0 I L0. unfold reach_start in I. destruct (cl_start g) as [s|] eqn:S; [|destruct I]. destruct (lookup s (cl_blocks g)) as [bs|] eqn:Ls; [|destruct I]. destruct (phis_in bs) eqn:P; [|destruct I]. destruct I as [ <- |[]].
    rewrite Ls in L0. injection L0 as <-. eapply rw_start; eauto. unfold phis_in, rest_in in *. destruct (phis_of (cb_instrs bs)). cbn in *. congruence.
  - intros c x D. assert (exists g, JumpSpec.component ob c g) as (g & K) by (destruct D as [(f & k & -> & L & _)|(b & blk & i & B & _)]; [exists (fn_blocks k), k; auto|apply block_component in B as (g & K & _); eauto]).
    destruct (HC c g K) as (ND & _ & _ & Q & _). apply Q. apply defined_In; auto. apply component_In, H in K. cbn [snd] in K. rewrite !andb_true_iff in K. tauto.
Qed.

(** Orders: [rank] puts functions before those that call them. *)
Definition site_list (ob : cobject) : list (option string * linstr) := flat_map (fun cg => flat_map (fun kb => map (fun i => (fst cg, i)) (cb_instrs (snd kb))) (cl_blocks (snd cg))) (components ob).
Lemma call_in_sites ob f c b n : call_at ob f c b n -> exists i, In (c, i) (site_list ob) /\ li_op i = f.
Proof.
  intros (blk & i & B & E & O). exists i. split; [|exact O]. apply block_component in B as (g & K & L). apply component_In in K. unfold site_list. apply in_flat_map. exists (c, g). split; [exact K|]. cbn [fst snd]. apply in_flat_map. exists (b, blk). split; [now apply lookup_In|].
  cbn [snd]. apply in_map_iff. exists i. split; [reflexivity|]. eapply nth_error_In; eauto.
Qed.
Definition rankedb (ob : cobject) (rank : string -> nat) : bool :=
  forallb (fun ci => match fst ci with Some p => negb (mem (li_op (snd ci)) (map fst (ob_functions ob))) || Nat.ltb (rank (li_op (snd ci))) (rank p) | None => true end) (site_list ob).
Lemma ranked_calls ob rank : rankedb ob rank = true -> forall p f, calls ob p f -> rank f < rank p.
Proof.
  intros H p f C. induction C as [p f b n C I|p q f C1 IH1 C2 IH2]; [|lia]. apply call_in_sites in C as (i & J & O). unfold rankedb in H. rewrite forallb_forall in H. apply H in J. cbn [fst snd] in J. rewrite O in J. apply mem_In in I. rewrite I in J. now apply Nat.ltb_lt.
Qed.
Fixpoint beforeb (order : list string) (f p : string) : bool :=
  match order with [] => false | x :: l => if String.eqb x f then mem p l else beforeb l f p end.
Lemma beforeb_sound order f p : beforeb order f p = true -> exists l1 l2 l3, order = l1 ++ f :: l2 ++ p :: l3.
Proof.
  induction order as [|x l IH]; [discriminate|]. cbn. destruct (String.eqb_spec x f) as [->|N].
  - intros M. apply mem_In, in_split in M as (l2 & l3 & ->). exists [], l2, l3. reflexivity.
  - intros B. destruct (IH B) as (l1 & l2 & l3 & ->). exists (x :: l1), l2, l3. reflexivity.
Qed.
Definition orderb (ob : cobject) (order : list string) (cyclic : string -> string -> bool) : bool :=
  nodupb order && forallb (fun f => mem f (map fst (ob_functions ob)) && existsb (fun ci => String.eqb (li_op (snd ci)) f) (site_list ob)) order
  && forallb (fun ci => negb (mem (li_op (snd ci)) (map fst (ob_functions ob))) || mem (li_op (snd ci)) order) (site_list ob)
  && forallb (fun ci => match fst ci with Some p => negb (mem (li_op (snd ci)) order && mem p order) || cyclic (li_op (snd ci)) p || beforeb order (li_op (snd ci)) p | None => true end) (site_list ob).
Lemma sites_call ob c i : object_ok ob -> In (c, i) (site_list ob) -> exists b n, call_at ob (li_op i) c b n.
Proof.
  intros OO I. unfold site_list in I. apply in_flat_map in I as ((c0 & g) & K & I). cbn [fst snd] in I. apply in_flat_map in I as ((b & blk) & Ib & I). cbn [snd] in I. apply in_map_iff in I as (j & Q & J). injection Q as -> ->.
  apply In_nth_error in J as (n & E). exists b, n, blk, i. split; [|auto]. assert (KC : JumpSpec.component ob c g).
  { unfold components in K. destruct K as [Q|K]; [injection Q as <- <-; reflexivity|]. apply in_map_iff in K as ((f & k) & Q & K). injection Q as <- <-. exists k. split; [|reflexivity]. apply JumpProps.dict_In; [exact (oo_functions _ OO)|exact K]. }
  apply block_component. exists g. split; [exact KC|]. apply JumpProps.dict_In; [exact (c_keys _ (oo_consistent _ OO _ _ KC))|exact Ib].
Qed.
Lemma orderb_sound ob order cyclic : object_ok ob -> (forall f p, cyclic f p = true -> calls ob f p) -> orderb ob order cyclic = true -> inlining_order ob order.
Proof.
  intros OO CY. unfold orderb. rewrite !andb_true_iff, !forallb_forall. intros (((H1 & H2) & H3) & H4). constructor.
  - now apply nodupb_sound.
  - intros f. split.
    + intros I. apply H2 in I. apply andb_true_iff in I as (I1 & I2). apply mem_In in I1. split; [exact I1|]. apply existsb_exists in I2 as ((c & i) & I & Q). cbn [snd] in Q. apply String.eqb_eq in Q. destruct (sites_call ob c i OO I) as (b & n & C). rewrite Q in C. eauto.
    + intros (I & c & b & n & C). apply call_in_sites in C as (i & J & O). apply H3 in J. cbn [snd] in J. rewrite O in J. apply mem_In in I. rewrite I in J. cbn in J. now apply mem_In.
  - intros f p b n If Ip C NC. apply call_in_sites in C as (i & J & O). apply H4 in J. cbn [fst snd] in J. rewrite O in J. apply mem_In in If, Ip. rewrite If, Ip in J. cbn [negb andb orb] in J. apply orb_true_iff in J as [J|J]; [elim NC; now apply CY|now apply beforeb_sound].
Qed.

(** The object of ObjExamples.v: the loop calls a function, which calls a
    function without exit; both are inlined. *)
Definition rank_in (l : list string) (x : string) : nat := match index_of x l with Some n => n | None => length l end.
Example count_driver_ok : object_ok count_object /\ ssa count_object /\ calls_ok count_object /\ inlining_order count_object ["fail_1"; "next_2"] /\ (forall f, called_once count_object f -> ~ calls count_object f f).
Proof.
  assert (OO := proj1 count_ok). split; [exact OO|]. split; [exact count_ssa|]. split; [apply calls_okb_sound; vm_compute; reflexivity|]. split; [apply (orderb_sound _ _ (fun _ _ => false) OO); [discriminate|vm_compute; reflexivity]|].
  intros f _ C. apply (ranked_calls _ (rank_in ["fail_1"; "next_2"])) in C; [lia|vm_compute; reflexivity].
Qed.
Example count_driver_stops : exists ob' w, inline_functions ["fail_1"; "next_2"] count_object = Ok ob' /\ ob_functions ob' = []
  /\ stops (machine_words ints nonzero zero) ob' (fun _ => []) "STOP" [] w /\ w tt = [(2, 7); (1, 2); (0, 1)]%Z.
Proof.
  destruct count_driver_ok as (A & B & C & D & E). destruct (inline_functions_keeps_meaning _ _ A B C D E) as (ob' & Q & H & _). destruct count_stops as (w & S & W). exists ob', w. split; [exact Q|]. split; [vm_compute in Q; injection Q as <-; reflexivity|].
  split; [|exact W]. exact (proj1 (H Z _ _ machine_words_by_operation (fun _ => [])) _ _ _ S).
Qed.

(** Three calls in one block, inlined in another order than they come; the
    second one has two exits, so that the block after it begins with a phi
    function. *)
Definition three_object : cobject := {|
  ob_main := parsed
    [ fin "E" [ins "calldataload" ["0x00"] ["n"]; ins "up_1" ["n"] ["x"]; ins "sstore" ["x"; "n"] []; ins "cut_1" ["x"] ["y"]; ins "up_2" ["y"; "x"] ["z"]; ins "sstore" ["y"; "z"] []] ];
  ob_functions :=
    [ ("up_1", {| fn_args := ["a"]; fn_blocks := parsed [ ret "up1_Block0" ["b"] [ins "add" ["a"; "0x01"] ["b"]] ] |});
      ("cut_1", {| fn_args := ["u"]; fn_blocks := parsed
        [ cnd "cut_Block0" "d" "cut_Block1" "cut_Block2" [ins "lt" ["u"; "0x02"] ["d"]];
          ret "cut_Block1" ["v"] [ins "add" ["u"; "0x05"] ["v"]];
          ret "cut_Block2" ["u"] [] ] |});
      ("up_2", {| fn_args := ["r"; "s"]; fn_blocks := parsed [ ret "up2_Block0" ["t"] [ins "add" ["r"; "s"] ["t"]] ] |}) ] |}.
Example three_ok : object_ok three_object /\ ssa three_object /\ calls_ok three_object /\ inlining_order three_object ["cut_1"; "up_2"; "up_1"] /\ (forall f, called_once three_object f -> ~ calls three_object f f).
Proof.
  assert (OO : object_ok three_object) by (apply object_okb_sound; vm_compute; reflexivity). split; [exact OO|]. split; [apply ssab_sound; vm_compute; reflexivity|]. split; [apply calls_okb_sound; vm_compute; reflexivity|].
  split; [apply (orderb_sound _ _ (fun _ _ => false) OO); [discriminate|vm_compute; reflexivity]|].
  intros f _ C. apply (ranked_calls _ (fun _ => 0)) in C; [lia|vm_compute; reflexivity].
Qed.
Example three_stops : exists ob' w, inline_functions ["cut_1"; "up_2"; "up_1"] three_object = Ok ob' /\ ob_functions ob' = []
  /\ map fst (cl_blocks (ob_main ob')) = ["cut_Block0"; "cut_Block1"; "cut_Block2"; "up2_Block0"; "Esf"; "Ess"; "up1_Block0"; "Eff"; "Efs"]
  /\ stops (machine_words ints nonzero zero) ob' (fun _ => []) "STOP" [] w /\ w tt = [(8, 11); (3, 2)]%Z.
Proof.
  destruct three_ok as (A & B & C & D & E). destruct (inline_functions_keeps_meaning _ _ A B C D E) as (ob' & Q & H & _).
  assert (S : exists w, stops (machine_words ints nonzero zero) three_object (fun _ => []) "STOP" [] w /\ w tt = [(8, 11); (3, 2)]%Z) by (eexists; split; [eexists _, 15; split; [vm_compute; reflexivity|vm_compute; reflexivity]|reflexivity]).
  destruct S as (w & S & W). exists ob', w. split; [exact Q|]. split; [vm_compute in Q; injection Q as <-; reflexivity|]. split; [vm_compute in Q; injection Q as <-; reflexivity|]. split; [|exact W]. exact (proj1 (H Z _ _ machine_words_by_operation (fun _ => [])) _ _ _ S).
Qed.

(** Functions that call each other.  The members of a cycle come in the order of
    a Python set of strings, which differs from run to run: with some orders the
    pass ends, with others it looks for a call in a function already inlined and
    raises. *)
Definition cycle_object : cobject := {|
  ob_main := parsed [ fin "E" [ins "q_1" ["0x00"] ["n"]; ins "sstore" ["n"; "n"] []] ];
  ob_functions :=
    [ ("q_1", {| fn_args := ["a"]; fn_blocks := parsed
        [ cnd "q_Block0" "d" "q_Block1" "q_Block2" [ins "lt" ["a"; "0x02"] ["d"]];
          ret "q_Block1" ["a"] [];
          ret "q_Block2" ["b"] [ins "p_1" ["a"] ["b"]] ] |});
      ("p_1", {| fn_args := ["u"]; fn_blocks := parsed [ ret "p_Block0" ["v"] [ins "r_1" ["u"] ["v"]] ] |});
      ("r_1", {| fn_args := ["s"]; fn_blocks := parsed [ ret "r_Block0" ["y"] [ins "add" ["s"; "0x01"] ["t"]; ins "q_1" ["t"] ["y"]] ] |}) ] |}.
Lemma calls_step ob p f b n blk i : block_at ob (Some p) b = Some blk -> nth_error (cb_instrs blk) n = Some i -> li_op i = f -> mem f (map fst (ob_functions ob)) = true -> calls ob p f.
Proof. intros B E O M. eapply calls_here; [exists blk, i; eauto|]. now apply mem_In. Qed.
Lemma cycle_calls f p : In f ["q_1"; "p_1"; "r_1"] -> In p ["q_1"; "p_1"; "r_1"] -> calls cycle_object f p.
Proof.
  assert (QP : calls cycle_object "q_1" "p_1") by (eapply (calls_step _ _ _ "q_Block2" 0); vm_compute; reflexivity).
  assert (PR : calls cycle_object "p_1" "r_1") by (eapply (calls_step _ _ _ "p_Block0" 0); vm_compute; reflexivity).
  assert (RQ : calls cycle_object "r_1" "q_1") by (eapply (calls_step _ _ _ "r_Block0" 1); vm_compute; reflexivity).
  assert (QR := calls_trans _ _ _ _ QP PR). assert (PQ := calls_trans _ _ _ _ PR RQ). assert (RP := calls_trans _ _ _ _ RQ QP).
  intros [ <- |[ <- |[ <- |[]]]] [ <- |[ <- |[ <- |[]]]]; auto; eapply calls_trans; eauto.
Qed.
Lemma cycle_ok : object_ok cycle_object /\ ssa cycle_object /\ calls_ok cycle_object.
Proof. split; [apply object_okb_sound|split; [apply ssab_sound|apply calls_okb_sound]]; vm_compute; reflexivity. Qed.
Lemma cycle_order order : orderb cycle_object order (fun f p => mem f ["q_1"; "p_1"; "r_1"] && mem p ["q_1"; "p_1"; "r_1"]) = true -> inlining_order cycle_object order.
Proof. apply orderb_sound; [exact (proj1 cycle_ok)|]. intros f p M. apply andb_true_iff in M as (A & B). apply mem_In in A, B. now apply cycle_calls. Qed.
Theorem inline_functions_recursion_refuted : ~ (forall ob order, object_ok ob -> ssa ob -> calls_ok ob -> inlining_order ob order -> exists ob', inline_functions order ob = Ok ob').
Proof.
  intros H. destruct cycle_ok as (A & B & C). destruct (H cycle_object ["p_1"; "r_1"; "q_1"] A B C) as (ob' & E); [apply cycle_order; vm_compute; reflexivity|]. vm_compute in E. discriminate.
Qed.
(** Two orders allowed for one object: one raises, the other does not. *)
Theorem inline_functions_order_refuted : ~ (forall ob order order', object_ok ob -> ssa ob -> calls_ok ob -> inlining_order ob order -> inlining_order ob order' ->
  (exists ob', inline_functions order ob = Ok ob') -> exists ob', inline_functions order' ob = Ok ob').
Proof.
  intros H. destruct cycle_ok as (A & B & C). destruct (H cycle_object ["r_1"; "p_1"; "q_1"] ["p_1"; "r_1"; "q_1"] A B C) as (ob' & E); [apply cycle_order; vm_compute; reflexivity|apply cycle_order; vm_compute; reflexivity| |vm_compute in E; discriminate].
  eexists. vm_compute. reflexivity.
Qed.
Print Assumptions inline_functions_order_refuted.
