(** C45: concrete objects that meet the hypotheses, and one that does not. *)
From Coq Require Import Relations.
From Verif Require Import Base Lexical SymExecModel MachineSpec DepsModel SpecSem UtilModel UtilProps UnifyProps LiveModel CfgModel CfgSpec CfgProps CombineProps MergePassProps RemoveProps
  JumpModel ProgSem JumpSpec JumpProofs JumpExamples CombineModel ObjCombineSpec ObjSem ObjErase ObjProgram ObjProps ObjCombineProps ObjExamples.
Open Scope string_scope. Open Scope list_scope.

(** ** Checks *)
Definition isnil {A} (l : list A) : bool := match l with [] => true | _ => false end.
Definition nxt (g : clist) (x : string) : list string := filter (fun y => forallb (String.eqb x) (graph_preds g y) && forallb (String.eqb y) (graph_succs g x)) (graph_succs g x).
Fixpoint grow (n : nat) (g : clist) (l : list string) : list string := match n with O => l | S n' => grow n' g (nodup string_dec (l ++ flat_map (nxt g) l)) end.
Definition chainb (g : clist) (a : string) : bool :=
  let l := grow (length (cl_blocks g)) g (nxt g a) in
  forallb (fun y => mem y l) (nxt g a) && forallb (fun b => forallb (fun y => mem y l) (nxt g b) && negb (mem a (graph_succs g b))) l.
Definition combinable_listb (g : clist) : bool :=
  consistentb g
  && forallb (fun kb => nodupb (successors (snd kb)) && (opt_eqb (cb_cond (snd kb)) None || Nat.eqb (length (successors (snd kb))) 2)
       && match cl_start g with Some s => negb (mem s (successors (snd kb))) | None => true end
       && chainb g (fst kb)
       && (negb (typeb (snd kb) "mainExit") || isnil (successors (snd kb)))
       && (negb (typeb (snd kb) "conditional") || negb (opt_eqb (cb_jump_to (snd kb)) None) && negb (opt_eqb (cb_falls_to (snd kb)) None))
       && (negb (Nat.leb (length (cb_comes_from (snd kb))) 1) || forallb (fun i => negb (String.eqb (li_op i) "PhiFunction")) (cb_instrs (snd kb)))) (cl_blocks g).
Definition combinableb (ob : cobject) : bool := nodupb (map fst (ob_functions ob)) && forallb (fun cg => combinable_listb (snd cg)) (components ob).

Lemma alone_nxt g x y : consistent g -> alone g x y -> In y (nxt g x).
Proof.
  intros C (E & S & P). unfold nxt. apply filter_In. split; [now apply In_graph_succs|]. apply andb_true_iff. split; apply forallb_forall; intros z I.
  - apply (In_graph_preds g z y (c_keys g C)) in I. rewrite (P z I). apply String.eqb_refl.
  - apply In_graph_succs in I. rewrite (S z I). apply String.eqb_refl.
Qed.
Lemma chainb_sound g a b : consistent g -> chainb g a = true -> clos_trans string (alone g) a b -> ~ edge g b a.
Proof.
  intros C. unfold chainb. set (l := grow _ g _). rewrite andb_true_iff, !forallb_forall. intros (H0 & H) T. assert (IN : In b l).
  { apply clos_trans_tn1 in T. induction T as [b A|b c A T IH].
    - apply mem_In, H0. now apply alone_nxt.
    - apply H in IH. apply andb_true_iff in IH as (IH & _). rewrite forallb_forall in IH. apply mem_In, IH. now apply alone_nxt. }
  apply H in IN. apply andb_true_iff in IN as (_ & IN). apply negb_true_iff, mem_false in IN. intros E. apply IN. now apply In_graph_succs.
Qed.
Lemma combinable_listb_sound g : combinable_listb g = true ->
  consistent g /\ MergePassProps.tidy g /\ start_first g /\ no_closed_chain g /\ typed_exits g /\ joins_have_phis g.
Proof.
  unfold combinable_listb. rewrite andb_true_iff, forallb_forall. intros (C & H). apply consistentb_sound in C. split; [exact C|].
  assert (HB : forall x b, lookup x (cl_blocks g) = Some b -> NoDup (successors b) /\ (cb_cond b <> None -> length (successors b) = 2) /\ (forall s, cl_start g = Some s -> ~ In s (successors b)) /\ chainb g x = true
    /\ (cb_type b = "mainExit" -> successors b = []) /\ (cb_type b = "conditional" -> cb_jump_to b <> None /\ cb_falls_to b <> None)
    /\ (length (cb_comes_from b) <= 1 -> forall i, In i (cb_instrs b) -> li_op i <> "PhiFunction")).
  { intros x b L. apply lookup_In, H in L. cbn [fst snd] in L. rewrite !andb_true_iff in L. destruct L as ((((((A1 & A2) & A3) & A4) & A5) & A6) & A7). split; [now apply nodupb_sound|]. split.
    { intros N. apply orb_true_iff in A2 as [A2|A2]; [apply opt_eqb_eq in A2; contradiction|now apply Nat.eqb_eq]. } split.
    { intros s S. rewrite S in A3. apply negb_true_iff, mem_false in A3. exact A3. } split; [exact A4|]. split.
    { intros Q. unfold typeb in A5. rewrite Q, String.eqb_refl in A5. cbn [negb orb] in A5. destruct (successors b); [reflexivity|discriminate]. } split.
    { intros Q. unfold typeb in A6. rewrite Q, String.eqb_refl in A6. cbn [negb orb] in A6. apply andb_true_iff in A6 as (A & B). split; intros Z; rewrite Z in *; discriminate. }
    intros LE i I. apply orb_true_iff in A7 as [A7|A7]; [apply negb_true_iff, Nat.leb_gt in A7; lia|]. rewrite forallb_forall in A7. apply A7, negb_true_iff, String.eqb_neq in I. exact I. }
  split; [split; intros x b L; apply (HB x b L)|]. split.
  { intros s x S (b & L & TO). apply (HB x b L) in S. apply S. unfold successors. apply in_app_iff. destruct TO as [-> | ->]; [left|right]; now left. } split.
  { intros a b T. destruct (clos_trans_t1n _ _ _ _ T) as [y A|y z A _]; (destruct A as ((ba & L & _) & _); eapply chainb_sound; [exact C|exact (proj1 (proj2 (proj2 (proj2 (HB a ba L)))))|exact T]). } split.
  { intros x b L. destruct (HB x b L) as (_ & _ & _ & _ & A & B & _). auto. }
  { intros x b L. destruct (HB x b L) as (_ & _ & _ & _ & _ & _ & A). exact A. }
Qed.
Lemma combinableb_sound ob : combinableb ob = true -> combinable ob.
Proof.
  unfold combinableb. rewrite andb_true_iff, forallb_forall. intros (ND & H).
  assert (HC : forall c g, component ob c g -> consistent g /\ MergePassProps.tidy g /\ start_first g /\ no_closed_chain g /\ typed_exits g /\ joins_have_phis g) by (intros c g K; apply component_In, H in K; now apply combinable_listb_sound).
  split; [now apply nodupb_sound|..]; intros c g K; apply (HC c g K).
Qed.

Fixpoint may_run_out (n : nat) (g : clist) (x : string) : bool :=
  match n with
  | O => true
  | S n' => match lookup x (cl_blocks g) with
            | Some b => isnil (cb_instrs b) && (typeb b "mainExit" || isnil (successors b) || existsb (may_run_out n' g) (successors b))
            | None => false
            end
  end.
Lemma may_run_out_sound n g : forall x, may_run_out n g x = false -> ~ runs_out g x.
Proof.
  induction n as [|n IH]; intros x H R; [discriminate|]. cbn [may_run_out] in H. destruct R as [b L I T|b y L I E R]; rewrite L, I in H; cbn [isnil andb] in H; apply orb_false_iff in H as (H1 & H2).
  - apply orb_false_iff in H1 as (H1 & H3). destruct T as [T|T]; [unfold typeb in H1; rewrite T, String.eqb_refl in H1|rewrite T in H3]; discriminate.
  - apply (edge_succ g x y b L) in E. assert (Q : may_run_out n g y = false); [|exact (IH y Q R)]. destruct (may_run_out n g y) eqn:Q; [|reflexivity]. rewrite <- H2. symmetry. apply existsb_exists. eauto.
Qed.
Definition separable_listb (ob : cobject) (g : clist) : bool :=
  match cl_start g with Some s => mem s (map fst (cl_blocks g)) && forallb (fun x => mem x (reach_rounds (length (cl_blocks g)) g [s]) || match lookup x (cl_blocks g) with Some b => isnil (cb_instrs b) && isnil (successors b) | None => false end) (map fst (cl_blocks g)) | None => true end
  && forallb (fun kb => (isnil (successors (snd kb)) || forallb (fun i => negb (mem (li_op i) leaving)) (cb_instrs (snd kb)))
       && match rev (cb_instrs (snd kb)) with
          | i :: _ => negb (mem (li_op i) (map fst (ob_functions ob))) || opt_eqb (return_name ob (Some (li_op i))) None
                      || forallb (fun y => negb (may_run_out (length (cl_blocks g)) g y)) (successors (snd kb))
          | [] => true
          end) (cl_blocks g).
Definition separableb (ob : cobject) : bool := forallb (fun cg => consistentb (snd cg) && separable_listb ob (snd cg)) (components ob).
Lemma separableb_sound ob : separableb ob = true -> separable ob.
Proof.
  unfold separableb. rewrite forallb_forall. intros H.
  assert (HC : forall c g, component ob c g -> consistent g /\ separable_listb ob g = true) by (intros c g K; apply component_In, H in K; apply andb_true_iff in K as (A & B); split; [now apply consistentb_sound|exact B]).
  split.
  - intros c g s x K S I. destruct (HC c g K) as (C & L). unfold separable_listb in L. rewrite S in L. apply andb_true_iff in L as (L & _). apply andb_true_iff in L as (L0 & L). apply mem_In in L0. rewrite forallb_forall in L. apply L, orb_true_iff in I as [I|I].
    + left. apply mem_In in I. now apply (rounds_exact g s x C L0).
    + right. destruct (lookup x (cl_blocks g)) as [b|] eqn:Lx; [|discriminate]. apply andb_true_iff in I as (I1 & I2). exists b. split; [exact Lx|]. destruct (cb_instrs b); [|discriminate]. destruct (successors b); [auto|discriminate].
  - intros c g x b i K L I IL. destruct (HC c g K) as (C & B). unfold separable_listb in B. apply andb_true_iff in B as (_ & B). rewrite forallb_forall in B. apply lookup_In, B in L. cbn [snd] in L. apply andb_true_iff in L as (L & _).
    apply orb_true_iff in L as [L|L]; [destruct (successors b); [reflexivity|discriminate]|]. rewrite forallb_forall in L. apply L, negb_true_iff, mem_false in I. contradiction.
  - intros c g x b pre i y K L Q F R E. destruct (HC c g K) as (C & B). unfold separable_listb in B. apply andb_true_iff in B as (_ & B). rewrite forallb_forall in B. pose proof L as L0. apply lookup_In, B in L. cbn [snd] in L. apply andb_true_iff in L as (_ & L).
    rewrite Q, rev_app_distr in L. cbn [rev app] in L. apply mem_In in F. rewrite F in L. cbn [negb orb] in L. apply orb_true_iff in L as [L|L]; [apply opt_eqb_eq in L; contradiction|]. rewrite forallb_forall in L.
    apply (edge_succ g x y b L0) in E. apply L, negb_true_iff in E. now apply may_run_out_sound in E.
Qed.

(** ** Examples *)
(** The object of C44 with blocks to merge in the loop and in the function, and
    an empty block after the loop. *)
Definition chain_object : cobject := {|
  ob_main := parsed
    [ jmp "E0" "E" [];
      jmp "E" "H" [ins "calldataload" ["0x00"] ["n"]];
      joined ["E"; "D"] (cnd "H" "c" "X" "B" [ins "PhiFunction" ["0x00"; "j"] ["i"]; ins "lt" ["i"; "n"] ["c"]]);
      jmp "B" "D" [ins "next_2" ["i"; "n"] ["j"]; ins "mload" ["i"] ["k"]];
      jmp "D" "H" [ins "sstore" ["k"; "j"] []];
      jmp "X" "Y" [ins "sstore" ["i"; "0x07"] []];
      fin "Y" [] ];
  ob_functions :=
    [ ("next_2", {| fn_args := ["y"; "x"]; fn_blocks := parsed
        [ cnd "next_Block0" "d" "next_Block2" "next_Block1" [ins "lt" ["x"; "y"] ["d"]];
          jmp "next_Block1" "next_Block3" [ins "add" ["x"; "0x01"] ["z"]];
          trm "next_Block2" [ins "fail_1" ["x"] []];
          ret "next_Block3" ["z"] [] ] |});
      ("fail_1", {| fn_args := ["v"]; fn_blocks := parsed [ trm "fail_Block0" [ins "revert" ["0x00"; "v"] []] ] |}) ] |}.
Example chain_ok : object_ok chain_object /\ object_readable chain_object /\ combinable chain_object /\ separable chain_object.
Proof. split; [apply object_okb_sound|split; [apply readableb_sound|split; [apply combinableb_sound|apply separableb_sound]]]; vm_compute; reflexivity. Qed.
Example chain_combined : exists ob', combine_remove_object [] chain_object = Ok ob'
  /\ map fst (cl_blocks (ob_main ob')) = ["H"; "E0"; "B"; "X"] /\ option_map (fun k => map fst (cl_blocks (fn_blocks k))) (lookup "next_2" (ob_functions ob')) = Some ["next_Block0"; "next_Block2"; "next_Block1"].
Proof. eexists. split; [vm_compute; reflexivity|]. vm_compute. auto. Qed.
Example chain_stops : exists w, stops (machine_words ints nonzero zero) chain_object (fun _ => []) "STOP" [] w /\ w tt = [(2, 7); (1, 2); (0, 1)]%Z.
Proof. eexists. split; [eexists _, 32; split; [vm_compute; reflexivity|vm_compute; reflexivity]|reflexivity]. Qed.
Example chain_program_stops : exists ob1 ob' tags w n, combine_remove_object [] chain_object = Ok ob1 /\ insert_and_split ob1 = Ok (ob', tags)
  /\ csteps ints nonzero zero n (program_of ob') (Run None None (k_start (g_main (program_of ob'))) zero (fun _ => []) []) = Some (Halt "STOP" [] w)
  /\ w tt = [(2, 7); (1, 2); (0, 1)]%Z.
Proof.
  destruct chain_ok as (A & B & C & D). destruct (combine_and_jumps_keep_meaning_partial [] chain_object A B C D) as (ob1 & ob' & tags & E & R & P). destruct chain_stops as (w & S & Q).
  destruct (proj1 (P Z unit (list (Z * Z)) ints nonzero zero zero (fun _ => [])) _ _ _ S) as (n & K). exists ob1, ob', tags, w, n. auto.
Qed.

(** A block that nothing leads to is removed. *)
Definition dead_object : cobject := {|
  ob_main := parsed [ jmp "E" "A" [ins "calldataload" ["0x00"] ["n"]]; jmp "A" "X" [ins "sstore" ["n"; "n"] []]; jmp "U" "X" [ins "sstore" ["0x00"; "0x00"] []]; fin "X" [] ];
  ob_functions := [] |}.
Example dead_removed : combinable dead_object /\ exists ob', combine_remove_object [] dead_object = Ok ob' /\ map fst (cl_blocks (ob_main ob')) = ["X"; "E"] /\ same_meaning dead_object ob'.
Proof.
  assert (C : combinable dead_object) by (apply combinableb_sound; vm_compute; reflexivity). split; [exact C|]. destruct (combine_keeps_meaning_partial [] dead_object C) as (ob' & E & S). exists ob'. split; [exact E|]. split; [|exact S].
  vm_compute in E. injection E as <-. reflexivity.
Qed.

(** ** What goes wrong otherwise *)
(** The main code calls a function that returns and goes on to an empty block.
    The two blocks are combined, the call becomes the end of the main code and gets
    no return address: the program that is produced gets stuck. *)
Definition empty_exit_object : cobject := {|
  ob_main := parsed [ jmp "E" "X" [ins "store_1" ["0x05"] []]; fin "X" [] ];
  ob_functions := [ ("store_1", {| fn_args := ["x"]; fn_blocks := parsed [ ret "store_Block0" [] [ins "sstore" ["x"; "x"] []] ] |}) ] |}.
Theorem combined_exit_call_refuted : object_ok empty_exit_object /\ object_readable empty_exit_object /\ combinable empty_exit_object
  /\ exists ob1 ob' tags w, combine_remove_object ["call"] empty_exit_object = Ok ob1 /\ insert_and_split ob1 = Ok (ob', tags)
    /\ stops (machine_words ints nonzero zero) empty_exit_object (fun _ => []) "STOP" [] w
    /\ forall n op args w', csteps ints nonzero zero n (program_of ob') (Run None None (k_start (g_main (program_of ob'))) zero (fun _ => []) []) <> Some (Halt op args w').
Proof.
  split; [apply object_okb_sound; vm_compute; reflexivity|]. split; [apply readableb_sound; vm_compute; reflexivity|]. split; [apply combinableb_sound; vm_compute; reflexivity|].
  eexists _, _, _, _. split; [vm_compute; reflexivity|]. split; [vm_compute; reflexivity|]. split; [eexists _, 5; split; [vm_compute; reflexivity|vm_compute; reflexivity]|].
  intros n op args w'. do 4 (destruct n as [|n]; [vm_compute; discriminate|]). vm_compute. discriminate.
Qed.
Print Assumptions combined_exit_call_refuted.
