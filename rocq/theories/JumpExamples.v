(** C43: concrete objects that meet the hypotheses, and what fails outside. *)
From Verif Require Import Base UtilModel UtilProps UnifyProps LiveModel CfgModel CfgSpec CfgProps RemoveProps CombineProps JumpModel JumpSpec JumpTrace JumpProofs JumpObject JumpProps.
Open Scope string_scope. Open Scope list_scope.

Definition components (ob : cobject) : list (option string * clist) :=
  (None, ob_main ob) :: map (fun nf => (Some (fst nf), fn_blocks (snd nf))) (ob_functions ob).
Definition typeb (b : cblock) (t : string) : bool := String.eqb (cb_type b) t.
Definition exit_okb (b : cblock) : bool :=
  (negb (typeb b "unconditional") || (negb (opt_eqb (cb_jump_to b) None) && opt_eqb (cb_falls_to b) None))
  && (negb (typeb b "conditional") || (negb (opt_eqb (cb_jump_to b) None) && negb (opt_eqb (cb_falls_to b) None) && negb (opt_eqb (cb_cond b) None)))
  && (negb (typeb b "FunctionReturn") || (match successors b with [] => true | _ => false end
        && match rev (cb_instrs b) with i :: _ => String.eqb (li_op i) "functionReturn" && match li_outs i, li_lits i with [], None => true | _, _ => false end | [] => false end))
  && (typeb b "unconditional" || typeb b "conditional" || opt_eqb (cb_jump_to b) None).
Definition phib (i : linstr) : bool := String.eqb (li_op i) "PhiFunction".
Definition phis_firstb (l : list linstr) : bool := forallb (fun i => negb (phib i)) (skipn (phi_count l) l).
Definition plainb (fns : list string) (r : option string) (i : linstr) : bool :=
  negb (mem (li_op i) ["PUSH [tag]"; "JUMP"; "JUMPI"])
  && (negb (mem (li_op i) fns) || forallb (fun v => negb (numeral v)) (li_ins i))
  && (negb (String.eqb (li_op i) "functionReturn") || match r with Some r => negb (mem r (li_ins i)) | None => true end).
Definition instr_dec (i j : linstr) : {i = j} + {i <> j}.
Proof. decide equality; [decide equality; apply (list_eq_dec string_dec)|apply (list_eq_dec string_dec)|apply (list_eq_dec string_dec)|apply string_dec]. Defined.
Fixpoint nodupb (l : list string) : bool := match l with [] => true | x :: l' => negb (mem x l') && nodupb l' end.
Definition instr_eqb (i j : linstr) : bool := if instr_dec i j then true else false.
Definition onceb (fns : list string) (b : cblock) : bool :=
  match cb_split b with
  | None => true
  | Some i => mem (li_op i) (leaving ++ fns) && match rev (cb_instrs b) with j :: _ => instr_eqb i j | [] => false end
  end.
Definition leavingb (b : cblock) : bool :=
  let leaves i := mem (li_op i) leaving in
  forallb (fun i => negb (leaves i)) (removelast (cb_instrs b))
  && match rev (cb_instrs b) with
     | i :: _ => negb (leaves i) || (negb (mem (cb_type b) ["unconditional"; "conditional"]) && (negb (String.eqb (li_op i) "functionReturn") || typeb b "FunctionReturn"))
     | [] => true
     end.
Definition blockb (fns : list string) (r : option string) (kb : string * cblock) : bool :=
  let (x, b) := kb in
  negb (mem x (successors b)) && nodupb (successors b) && exit_okb b && phis_firstb (cb_instrs b) && onceb fns b && leavingb b && forallb (plainb fns r) (cb_instrs b).
Fixpoint fs_suffixb (x y : string) : bool :=
  match x, y with
  | "", _ => forallb (fun c => Ascii.eqb c "f" || Ascii.eqb c "s") (list_ascii_of_string y)
  | String a x', String b y' => Ascii.eqb a b && fs_suffixb x' y'
  | String _ _, "" => false
  end.
Definition names (ob : cobject) : list (option string * string) := flat_map (fun cg => map (fun x => (fst cg, x)) (map fst (cl_blocks (snd cg)))) (components ob).
Definition name_eqb (a b : option string * string) : bool := opt_eqb (fst a) (fst b) && String.eqb (snd a) (snd b).
Definition object_okb (ob : cobject) : bool :=
  nodupb (map fst (ob_functions ob))
  && forallb (fun f => negb (mem f ["PUSH [tag]"; "JUMP"; "JUMPI"; "functionReturn"; "PhiFunction"])) (map fst (ob_functions ob))
  && match cl_return (ob_main ob) with [] => true | _ => false end
  && forallb (fun cg => consistentb (snd cg) && forallb (blockb (map fst (ob_functions ob)) (return_name ob (fst cg))) (cl_blocks (snd cg))) (components ob)
  && forallb (fun a => forallb (fun b => negb (fs_suffixb (snd a) (snd b)) || name_eqb a b) (names ob)) (names ob).

Lemma nodupb_sound l : nodupb l = true -> NoDup l.
Proof. induction l as [|x l IH]; [constructor|]. cbn [nodupb]. rewrite andb_true_iff, negb_true_iff, mem_false. intros (A & B). constructor; auto. Qed.
Lemma component_In ob c g : component ob c g -> In (c, g) (components ob).
Proof.
  destruct c as [f|]; intros H; [|left; f_equal; exact H]. destruct H as (k & L & <-). right. apply in_map_iff. exists (f, k). split; [reflexivity|exact (lookup_In _ _ _ L)].
Qed.
Lemma fs_suffixb_ok x w : fs_word w -> fs_suffixb x (x ++ w)%string = true.
Proof.
  intros F. induction x as [|c x IH]; cbn.
  - destruct w; [reflexivity|]. apply forallb_forall. intros c I. destruct (F c I) as [->| ->]; reflexivity.
  - now rewrite Ascii.eqb_refl.
Qed.
Lemma exit_okb_sound b : exit_okb b = true -> exit_ok b.
Proof.
  unfold exit_okb, typeb. rewrite !andb_true_iff. intros (((A & B) & C) & D). assert (N : forall o : option string, negb (opt_eqb o None) = true -> o <> None) by (intros [x|]; [discriminate|intros Q; discriminate Q]).
  split; [|split; [|split]].
  - intros T. rewrite T in A. cbn [String.eqb] in A. apply andb_true_iff in A as (A1 & A2). split; [now apply N|now apply opt_eqb_eq].
  - intros T. rewrite T in B. cbn [String.eqb] in B. apply andb_true_iff in B as (B1 & B3). apply andb_true_iff in B1 as (B1 & B2). repeat split; now apply N.
  - intros T. rewrite T in C. cbn [String.eqb] in C. apply andb_true_iff in C as (C1 & C2). split; [destruct (successors b); [reflexivity|discriminate]|].
    destruct (rev (cb_instrs b)) as [|i l] eqn:R; [discriminate|]. apply andb_true_iff in C2 as (C2 & C3). apply String.eqb_eq in C2. destruct (li_outs i) eqn:O; [|discriminate]. destruct (li_lits i) eqn:LT; [discriminate|].
    exists (rev l), (li_ins i). rewrite <- (rev_involutive (cb_instrs b)), R. cbn [rev]. destruct i as [op ii oo ll]. cbn in C2, O, LT |- *. now subst.
  - intros T1 T2. apply orb_true_iff in D as [D|D]; [apply orb_true_iff in D as [D|D]; apply String.eqb_eq in D; contradiction|]. now apply opt_eqb_eq.
Qed.
Lemma phis_firstb_sound l : phis_firstb l = true -> phis_first l.
Proof.
  intros H. exists (firstn (phi_count l) l), (skipn (phi_count l) l). split; [symmetry; apply firstn_skipn|]. split.
  - clear H. induction l as [|i l IH]; [intros j []|]. cbn [phi_count]. destruct (String.eqb_spec (li_op i) "PhiFunction") as [Q|]; [|intros j []]. cbn [firstn]. intros j [<-|I]; auto.
  - intros i I. unfold phis_firstb in H. rewrite forallb_forall in H. apply H, negb_true_iff, String.eqb_neq in I. exact I.
Qed.
Lemma onceb_sound fns b i : onceb fns b = true -> cb_split b = Some i -> In (li_op i) (leaving ++ fns) /\ exists pre, cb_instrs b = pre ++ [i].
Proof.
  unfold onceb. intros H Q. rewrite Q in H. apply andb_true_iff in H as (A & B). apply mem_In in A. split; [exact A|]. destruct (rev (cb_instrs b)) as [|j l] eqn:R; [discriminate|].
  unfold instr_eqb in B. destruct (instr_dec i j) as [->|]; [|discriminate]. exists (rev l). rewrite <- (rev_involutive (cb_instrs b)), R. reflexivity.
Qed.
Lemma leavingb_sound b pre i post : leavingb b = true -> cb_instrs b = pre ++ i :: post -> In (li_op i) leaving ->
  post = [] /\ ~ In (cb_type b) ["unconditional"; "conditional"] /\ (li_op i = "functionReturn" -> cb_type b = "FunctionReturn").
Proof.
  unfold leavingb. intros H Q N. apply mem_In in N. apply andb_true_iff in H as (A & B). rewrite forallb_forall in A. destruct (snoc_cases post) as [->|(post' & z & ->)].
  - split; [reflexivity|]. rewrite Q, rev_app_distr in B. cbn [rev app] in B. rewrite N in B. cbn [negb orb] in B. apply andb_true_iff in B as (B1 & B2). apply negb_true_iff, mem_false in B1. split; [exact B1|].
    intros F. rewrite F in B2. cbn [String.eqb Ascii.eqb Bool.eqb negb orb] in B2. apply String.eqb_eq in B2. exact B2.
  - exfalso. assert (I : In i (removelast (cb_instrs b))).
    { rewrite Q, app_comm_cons, app_assoc, removelast_last. apply in_app_iff. right. now left. }
    apply A in I. rewrite N in I. discriminate.
Qed.
Lemma object_okb_sound ob : object_okb ob = true -> object_ok ob.
Proof.
  unfold object_okb. rewrite !andb_true_iff, !forallb_forall. intros ((((H1 & H2) & H3) & H4) & H5).
  assert (HC : forall c g, component ob c g -> consistent g /\ forall x b, lookup x (cl_blocks g) = Some b -> blockb (map fst (ob_functions ob)) (return_name ob c) (x, b) = true).
  { intros c g K. apply component_In, H4 in K. cbn [fst snd] in K. apply andb_true_iff in K as (K1 & K2). split; [apply consistentb_sound, K1|]. rewrite forallb_forall in K2. intros x b L. apply K2. exact (lookup_In _ _ _ L). }
  assert (HB : forall c g x b, component ob c g -> lookup x (cl_blocks g) = Some b ->
    (~ In x (successors b) /\ NoDup (successors b)) /\ exit_ok b /\ phis_first (cb_instrs b) /\ onceb (map fst (ob_functions ob)) b = true /\ leavingb b = true /\ forall i, In i (cb_instrs b) -> plainb (map fst (ob_functions ob)) (return_name ob c) i = true).
  { intros c g x b K L. destruct (HC c g K) as (_ & HB). specialize (HB x b L). unfold blockb in HB. rewrite !andb_true_iff in HB. destruct HB as ((((((B1 & B2) & B3) & B4) & B6) & B7) & B5).
    apply negb_true_iff, mem_false in B1. rewrite forallb_forall in B5. split; [split; [exact B1|apply nodupb_sound, B2]|]. split; [apply exit_okb_sound, B3|]. split; [apply phis_firstb_sound, B4|]. split; [exact B6|split; [exact B7|exact B5]]. }
  constructor.
  - apply nodupb_sound, H1.
  - intros f I. apply H2 in I. apply negb_true_iff, mem_false in I. exact I.
  - destruct (cl_return (ob_main ob)); [reflexivity|discriminate].
  - intros c g K. apply (HC c g K).
  - intros c g x b K L. apply (HB c g x b K L).
  - intros c g x b K L. apply (HB c g x b K L).
  - intros c g x b K L. apply (HB c g x b K L).
  - intros c g x b i K L Q. destruct (HB c g x b K L) as (_ & _ & _ & O & _). exact (onceb_sound _ b i O Q).
  - intros c g x b pre i post K L Q N. destruct (HB c g x b K L) as (_ & _ & _ & _ & O & _). exact (leavingb_sound b pre i post O Q N).
  - intros c g x b i K L I. destruct (HB c g x b K L) as (_ & _ & _ & _ & _ & P). specialize (P i I). unfold plainb in P. rewrite !andb_true_iff in P. destruct P as ((P1 & P2) & P3). split; [|split].
    + apply negb_true_iff, mem_false in P1. exact P1.
    + intros F v Iv. apply orb_true_iff in P2 as [P2|P2]; [apply negb_true_iff, mem_false in P2; contradiction|]. rewrite forallb_forall in P2. apply P2, negb_true_iff in Iv. exact Iv.
    + intros Q r R Ir. rewrite Q, R in P3. cbn in P3. apply negb_true_iff, mem_false in P3. contradiction.
  - assert (NI : forall c x, block_name ob c x -> In (c, x) (names ob)).
    { intros c x (g & K & I). apply component_In in K. apply in_flat_map. exists (c, g). split; [exact K|]. apply in_map_iff. exists x. auto. }
    intros c1 c2 x y w B1 B2 F Q. apply NI, H5 in B1. rewrite forallb_forall in B1. apply NI, B1 in B2. cbn [fst snd] in B2. subst y. rewrite (fs_suffixb_ok x w F) in B2. cbn [negb orb] in B2.
    unfold name_eqb in B2. cbn [fst snd] in B2. apply andb_true_iff in B2 as (A & B). apply opt_eqb_eq in A. apply String.eqb_eq in B. auto.
Qed.

(** A loop that calls a function twice in its body, a function with two exits
    that calls another one, and a function that does not return. *)
Definition ret (id : string) (values : list string) (instrs : list linstr) : jblock :=
  {| j_id := id; j_type := "FunctionReturn"; j_targets := []; j_cond := None; j_returns := values; j_entries := []; j_instrs := instrs |}.
Definition trm (id : string) (instrs : list linstr) : jblock :=
  {| j_id := id; j_type := "Terminated"; j_targets := []; j_cond := None; j_returns := []; j_entries := []; j_instrs := instrs |}.
Definition demo_object : cobject := {|
  ob_main := parsed
    [ jmp "E" "H" [ins "calldataload" ["0x00"] ["n"]];
      cnd "H" "c" "X" "B" [ins "PhiFunction" ["0x00"; "j"] ["i"]; ins "lt" ["i"; "n"] ["c"]];
      jmp "B" "H" [ins "mload" ["0x40"] ["m"]; ins "pick_2" ["n"; "i"] ["lo"]; ins "sstore" ["lo"; "m"] []; ins "pick_2" ["lo"; "i"] ["j"]];
      fin "X" [ins "fail_1" ["n"] []] ];
  ob_functions :=
    [ ("pick_2", {| fn_args := ["x"; "y"]; fn_blocks := parsed
        [ cnd "pick_Block0" "d" "pick_Block1" "pick_Block2" [ins "lt" ["x"; "y"] ["d"]];
          ret "pick_Block1" ["x"] [];
          ret "pick_Block2" ["z"] [ins "fail_1" ["x"] []; ins "add" ["x"; "y"] ["z"]] ] |});
      ("fail_1", {| fn_args := ["v"]; fn_blocks := parsed [ trm "fail_Block0" [ins "revert" ["0x00"; "v"] []] ] |}) ] |}.
Example demo_object_ok : object_ok demo_object.
Proof. apply object_okb_sound. vm_compute. reflexivity. Qed.
Definition show (g : clist) : list (string * string * list (string * list string) * list string) :=
  map (fun kb => (fst kb, cb_type (snd kb), map (fun i => (li_op i, li_ins i ++ li_outs i)) (cb_instrs (snd kb)), successors (snd kb))) (cl_blocks g).
Example demo_object_run : exists ob tags, insert_and_split demo_object = Ok (ob, tags)
  /\ show (ob_main ob) =
     [ ("E", "unconditional", [("calldataload", ["0x00"; "n"]); ("PUSH [tag]", ["1"]); ("JUMP", ["1"])], ["H"]);
       ("H", "conditional", [("PhiFunction", ["0x00"; "j"; "i"]); ("lt", ["i"; "n"; "c"]); ("PUSH [tag]", ["2"]); ("JUMPI", ["2"; "c"])], ["Bf"; "X"]);
       ("X", "mainExit", [("PUSH [tag]", ["5"]); ("fail_1", ["5"; "n"])], []);
       ("Bf", "sub_block", [("PUSH [tag]", ["3"]); ("PUSH [tag]", ["6"]); ("mload", ["0x40"; "m"]); ("pick_2", ["3"; "n"; "i"; "6"; "lo"])], ["Bsf"]);
       ("Bsf", "sub_block", [("PUSH [tag]", ["3"]); ("PUSH [tag]", ["7"]); ("sstore", ["lo"; "m"]); ("pick_2", ["3"; "lo"; "i"; "7"; "j"])], ["Bss"]);
       ("Bss", "unconditional", [("PUSH [tag]", ["1"]); ("JUMP", ["1"])], ["H"]) ]
  /\ option_map fn_args (lookup "pick_2" (ob_functions ob)) = Some ["out_pick_2"; "x"; "y"]
  /\ tags = [("H", 1); ("pick_Block0", 3); ("fail_Block0", 5); ("Bf", 2); ("Bsf", 6); ("Bss", 7); ("pick_Block2f", 4); ("pick_Block2s", 8)].
Proof. eexists _, _. split; [vm_compute; reflexivity|]. vm_compute. repeat split. Qed.

(** The main code may end with a call to a function that returns: the call then
    carries no return address, although the function expects one. *)
Definition last_call_object : cobject := {|
  ob_main := parsed [ fin "E" [ins "calldataload" ["0x00"] ["n"]; ins "store_1" ["n"] []] ];
  ob_functions := [ ("store_1", {| fn_args := ["x"]; fn_blocks := parsed [ ret "store_Block0" [] [ins "sstore" ["x"; "x"] []] ] |}) ] |}.
Theorem main_exit_call_refuted : exists ob ob' tags f k r b i,
  object_ok ob /\ insert_and_split ob = Ok (ob', tags)
  /\ lookup f (ob_functions ob') = Some k /\ return_name ob (Some f) = Some r /\ fn_args k = r :: ["x"]
  /\ lookup "E" (cl_blocks (ob_main ob')) = Some b /\ cb_split b = Some i /\ li_op i = f /\ li_ins i = ["1"; "n"] /\ lookup "store_Block0" tags = Some 1.
Proof.
  exists last_call_object. eexists _, _, "store_1", _, _, _, _. split; [apply object_okb_sound; vm_compute; reflexivity|].
  split; [vm_compute; reflexivity|]. vm_compute. repeat split.
Qed.

(** Names: [Af] is also the name of the first half of [A]. *)
Definition clash_object : cobject := {|
  ob_main := parsed [ jmp "A" "Af" [ins "get_1" [] ["n"]; ins "sstore" ["n"; "n"] []]; fin "Af" [ins "stop" [] []] ];
  ob_functions := [ ("get_1", {| fn_args := []; fn_blocks := parsed [ ret "get_Block0" ["v"] [ins "sload" ["0x00"] ["v"]] ] |}) ] |}.
Theorem split_names_refuted : exists ob ob' tags b, insert_and_split ob = Ok (ob', tags)
  /\ In "Af" (map fst (cl_blocks (ob_main ob))) /\ lookup "Af" (cl_blocks (ob_main ob)) = Some b /\ map li_op (cb_instrs b) = ["stop"]
  /\ ~ (exists x b', lookup x (cl_blocks (ob_main ob')) = Some b' /\ In "stop" (map li_op (cb_instrs b'))).
Proof.
  exists clash_object. eexists _, _, _. split; [vm_compute; reflexivity|]. split; [vm_compute; tauto|]. split; [vm_compute; reflexivity|]. split; [reflexivity|].
  intros (x & b & L & I). apply lookup_In in L. vm_compute in L. destruct L as [L|[L|L]]; try (injection L as _ <-; vm_compute in I; intuition discriminate). destruct L.
Qed.
Print Assumptions main_exit_call_refuted.
Print Assumptions split_names_refuted.
