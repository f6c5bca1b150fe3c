(** C44: a concrete object that meets the hypotheses, run before and after. *)
From Verif Require Import Base Lexical SymExecModel MachineSpec DepsModel SpecSem UtilModel UtilProps LiveModel CfgModel CfgSpec CfgProps RemoveProps CombineProps
  JumpModel ProgSem JumpSpec JumpProofs JumpExamples ObjSem ObjErase ObjProgram ObjProps.
Open Scope string_scope. Open Scope list_scope.

Definition literalb (v : string) : bool := negb (startswith "0x" v) || match py_int16 v with Some _ => true | None => false end.
Definition readable_instrb (i : linstr) : bool :=
  forallb (fun o => negb (numeral o)) (li_outs i) && forallb literalb (li_ins i)
  && (negb (phib i) || match li_outs i with [_] => true | _ => false end) && negb (String.eqb (li_op i) "invalid").
Definition readable_exitb (ob : cobject) (b : cblock) : bool :=
  negb (typeb b "mainExit" || match successors b with [] => true | _ => false end)
  || match rev (cb_instrs b) with
     | i :: _ => negb (mem (li_op i) (map fst (ob_functions ob))) || opt_eqb (return_name ob (Some (li_op i))) None
     | [] => true
     end.
Definition readableb (ob : cobject) : bool :=
  forallb (fun fk => match return_name ob (Some (fst fk)) with Some r => negb (mem r (fn_args (snd fk))) | None => true end
                     && forallb (fun x => negb (numeral x)) (fn_args (snd fk))) (ob_functions ob)
  && forallb (fun cg => forallb (fun kb => forallb readable_instrb (cb_instrs (snd kb)) && readable_exitb ob (snd kb)
                                   && match cb_cond (snd kb) with Some v => literalb v | None => true end) (cl_blocks (snd cg))) (components ob).
Lemma literalb_sound v : literalb v = true -> startswith "0x" v = true -> py_int16 v <> None.
Proof. unfold literalb. intros H S. rewrite S in H. cbn in H. destruct (py_int16 v); [discriminate|discriminate]. Qed.
Lemma readableb_sound ob : readableb ob = true -> object_readable ob.
Proof.
  unfold readableb. rewrite andb_true_iff, !forallb_forall. intros (H1 & H2).
  assert (HF : forall f k, lookup f (ob_functions ob) = Some k -> match return_name ob (Some f) with Some r => negb (mem r (fn_args k)) | None => true end = true /\ forall x, In x (fn_args k) -> numeral x = false).
  { intros f k L. apply lookup_In, H1 in L. cbn [fst snd] in L. apply andb_true_iff in L as (A & B). split; [exact A|]. rewrite forallb_forall in B. intros x I. apply B, negb_true_iff in I. exact I. }
  assert (HB : forall c g x b, JumpSpec.component ob c g -> lookup x (cl_blocks g) = Some b ->
    (forall i, In i (cb_instrs b) -> readable_instrb i = true) /\ readable_exitb ob b = true /\ match cb_cond b with Some v => literalb v | None => true end = true).
  { intros c g x b K L. apply component_In, H2 in K. cbn [snd] in K. rewrite forallb_forall in K. apply lookup_In, K in L. cbn [snd] in L. rewrite !andb_true_iff in L. destruct L as ((A & B) & C). rewrite forallb_forall in A. auto. }
  assert (HI : forall c g x b i, JumpSpec.component ob c g -> lookup x (cl_blocks g) = Some b -> In i (cb_instrs b) ->
    (forall o, In o (li_outs i) -> numeral o = false) /\ (forall v, In v (li_ins i) -> literalb v = true) /\ (li_op i = "PhiFunction" -> exists o, li_outs i = [o]) /\ li_op i <> "invalid").
  { intros c g x b i K L I. apply (proj1 (HB c g x b K L)) in I. unfold readable_instrb in I. rewrite !andb_true_iff, !forallb_forall in I. destruct I as (((A & B) & C) & D). split; [intros o O; now apply negb_true_iff, A|]. split; [exact B|]. split.
    - intros P. unfold phib in C. rewrite P in C. cbn in C. destruct (li_outs i) as [|o [|]]; try discriminate. now exists o.
    - apply negb_true_iff, String.eqb_neq in D. exact D. }
  constructor.
  - intros f k r L R I. destruct (HF f k L) as (A & _). rewrite R in A. apply negb_true_iff, mem_false in A. contradiction.
  - intros f k x L I. apply (HF f k L), I.
  - intros c g x b i o K L I. apply (HI c g x b i K L I).
  - intros c g x b i v K L I Iv. apply literalb_sound. apply (HI c g x b i K L I), Iv.
  - intros c g x b v K L Q. apply literalb_sound. destruct (HB c g x b K L) as (_ & _ & A). rewrite Q in A. exact A.
  - intros c g x b i K L I. apply (HI c g x b i K L I).
  - intros c g x b i K L I. apply (HI c g x b i K L I).
  - intros c g x b pre i K L T Q F. destruct (HB c g x b K L) as (_ & A & _). unfold readable_exitb, typeb in A.
    replace (String.eqb (cb_type b) "mainExit" || match successors b with [] => true | _ => false end) with true in A by (symmetry; destruct T as [T|T]; rewrite T; [reflexivity|apply orb_true_r]).
    rewrite Q, rev_app_distr in A. cbn [negb orb rev app] in A. apply mem_In in F. rewrite F in A. cbn [negb orb] in A. now apply opt_eqb_eq.
Qed.
Example demo_readable : object_readable demo_object.
Proof. apply readableb_sound. vm_compute. reflexivity. Qed.

(** Integers; the world is the list of the stores made so far. *)
Definition ints : semantics Z unit (list (Z * Z)) := {|
  word_of_Z := fun z => z; tag_word := fun z => z; prim_arity := fun _ _ => 0;
  prim := fun op _ args w =>
    match op, args with
    | "CALLDATALOAD", _ => ([2%Z], w)
    | "LT", [a; b] => ([if (a <? b)%Z then 1%Z else 0%Z], w)
    | "ADD", [a; b] => ([(a + b)%Z], w)
    | "MLOAD", [a] => ([a], w)
    | "SSTORE", [a; b] => ([], fun _ => (a, b) :: w tt)
    | _, _ => ([], w)
    end |}.
Definition nonzero (z : Z) : bool := negb (z =? 0)%Z.
Definition zero (x : string) : Z := 0%Z.
(** The same object with a main loop that ends: the callee increases its argument. *)
Definition joined (entries : list string) (b : jblock) : jblock :=
  {| j_id := j_id b; j_type := j_type b; j_targets := j_targets b; j_cond := j_cond b; j_returns := j_returns b; j_entries := entries; j_instrs := j_instrs b |}.
Definition count_object : cobject := {|
  ob_main := parsed
    [ jmp "E" "H" [ins "calldataload" ["0x00"] ["n"]];
      joined ["E"; "B"] (cnd "H" "c" "X" "B" [ins "PhiFunction" ["0x00"; "j"] ["i"]; ins "lt" ["i"; "n"] ["c"]]);
      jmp "B" "H" [ins "next_2" ["i"; "n"] ["j"]; ins "sstore" ["i"; "j"] []];
      fin "X" [ins "sstore" ["i"; "0x07"] []] ];
  ob_functions :=
    [ ("next_2", {| fn_args := ["y"; "x"]; fn_blocks := parsed
        [ cnd "next_Block0" "d" "next_Block2" "next_Block1" [ins "lt" ["x"; "y"] ["d"]];
          ret "next_Block1" ["z"] [ins "add" ["x"; "0x01"] ["z"]];
          trm "next_Block2" [ins "fail_1" ["x"] []] ] |});
      ("fail_1", {| fn_args := ["v"]; fn_blocks := parsed [ trm "fail_Block0" [ins "revert" ["0x00"; "v"] []] ] |}) ] |}.
Example count_ok : object_ok count_object /\ object_readable count_object.
Proof. split; [apply object_okb_sound|apply readableb_sound]; vm_compute; reflexivity. Qed.
Example count_stops : exists w, stops (machine_words ints nonzero zero) count_object (fun _ => []) "STOP" [] w /\ w tt = [(2, 7); (1, 2); (0, 1)]%Z.
Proof.
  eexists. split; [eexists _, 24; split; [vm_compute; reflexivity|vm_compute; reflexivity]|reflexivity].
Qed.
Example count_program_stops : exists ob tags w n, insert_and_split count_object = Ok (ob, tags)
  /\ csteps ints nonzero zero n (program_of ob) (Run None None (k_start (g_main (program_of ob))) zero (fun _ => []) []) = Some (Halt "STOP" [] w)
  /\ w tt = [(2, 7); (1, 2); (0, 1)]%Z.
Proof.
  destruct (jumps_keep_meaning_partial count_object (proj1 count_ok) (proj2 count_ok)) as (ob & tags & R & P). destruct count_stops as (w & S & Q).
  destruct (proj1 (P Z unit (list (Z * Z)) ints nonzero zero zero (fun _ => [])) _ _ _ S) as (n & C). exists ob, tags, w, n. auto.
Qed.

(** A main loop that does not end. *)
Definition spin_object : cobject := {|
  ob_main := parsed [ jmp "E" "L" []; jmp "L" "M" [ins "tick_0" [] []]; jmp "M" "L" [] ];
  ob_functions := [ ("tick_0", {| fn_args := []; fn_blocks := parsed [ ret "tick_Block0" [] [ins "sstore" ["0x01"; "0x02"] []] ] |}) ] |}.
Example spin_ok : object_ok spin_object /\ object_readable spin_object.
Proof. split; [apply object_okb_sound|apply readableb_sound]; vm_compute; reflexivity. Qed.
Example spin_goes_on : goes_on (machine_words ints nonzero zero) spin_object (fun _ => []).
Proof.
  set (M := machine_words ints nonzero zero). eexists. split; [vm_compute; reflexivity|].
  assert (P : forall n, (forall w, exists c b rest e w' calls, osteps M n spin_object (Doing None "E" [] (fun _ => None) w []) = Some (Doing c b rest e w' calls))
    /\ (forall w, exists c b rest e w' calls, osteps M n spin_object (Doing None "L" [ins "tick_0" [] []] (fun _ => None) w []) = Some (Doing c b rest e w' calls))
    /\ (forall w, exists c b rest e w' calls, osteps M n spin_object (Doing None "L" [] (fun _ => None) w []) = Some (Doing c b rest e w' calls))
    /\ (forall w, exists c b rest e w' calls, osteps M n spin_object (Doing None "M" [] (fun _ => None) w []) = Some (Doing c b rest e w' calls))
    /\ (forall w, exists c b rest e w' calls, osteps M n spin_object
          (Doing (Some "tick_0") "tick_Block0" [ins "sstore" ["0x01"; "0x02"] []; ins "functionReturn" [] []] (fun _ => None) w
             [{| sp_comp := None; sp_block := "L"; sp_rest := []; sp_outs := []; sp_vars := fun _ => None |}]) = Some (Doing c b rest e w' calls))
    /\ (forall w, exists c b rest e w' calls, osteps M n spin_object
          (Doing (Some "tick_0") "tick_Block0" [ins "functionReturn" [] []] (fun _ => None) w
             [{| sp_comp := None; sp_block := "L"; sp_rest := []; sp_outs := []; sp_vars := fun _ => None |}]) = Some (Doing c b rest e w' calls))).
  { induction n as [|n IH]; [repeat split; intros w; do 6 eexists; reflexivity|]. destruct IH as (A & B & C & D & E & F).
    split; [intros w; exact (B w)|]. split; [intros w; exact (E w)|]. split; [intros w; exact (D w)|]. split; [intros w; exact (B w)|]. split; [intros w; exact (F _)|intros w; exact (C w)]. }
  intros n. destruct (P n) as (A & _). exact (A (fun _ => [])).
Qed.
