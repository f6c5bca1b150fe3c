(** Concrete runs of the final phase of the synthesizer: one that needs
    registers, one that raises and one that never ends. *)
From Verif Require Import Base Lexical AsmModel MachineSpec PermutModel PermutProps.
Open Scope string_scope. Open Scope list_scope. Open Scope Z_scope.

(** The letters of a text as names. *)
Definition letters (s : string) : list string := map (fun c => String c "") (list_ascii_of_string s).

(* ------------------------------------------------------------------ *)
(** A stack whose elements cannot all be reached by a SWAP. *)
Definition demo_c := letters "aebcde".
Definition demo_f := letters "dcbae".
Definition demo_ids : list string :=
  ["SWAP1"; "POP"; "VSET(a)"; "SWAP1"; "VSET(c)"; "SWAP1"; "VGET(a)"; "SWAP2"; "SWAP1"; "VGET(c)"; "SWAP1"].
Example demo_run : compute_permut_and_clean 20 2 demo_f demo_c (add_solved demo_c demo_f []) = Ok demo_ids.
Proof. vm_compute. reflexivity. Qed.
Lemma demo_one_line x : In x demo_c -> one_line x.
Proof. cbn. intros H. repeat (destruct H as [<-|H]; [intros [E|[]]; discriminate E|]). destruct H. Qed.
Lemma demo_indices z : In (swap_name z) demo_ids -> 1 <= z.
Proof.
  intros H. destruct (Z.ltb_spec z 1) as [Hz|]; [exfalso|lia].
  cbn [demo_ids In] in H.
  repeat (destruct H as [E|H];
    [first [discriminate E
           | destruct z as [|p|p]; [discriminate E|lia|
               apply (f_equal (sdrop 4)) in E; unfold swap_name, str_Z in E; cbn in E; discriminate E]]|]).
  destruct H.
Qed.
(** The hypotheses of [permutation_correct_partial] hold of this run. *)
Example demo_correct {V Loc LV : Type} (sem : @semantics V Loc LV) (e : string -> V) below w regs :
  exists regs',
    mrun sem (map item demo_ids) {| m_stack := map e demo_c ++ below; m_world := w; m_regs := regs |} =
    Some {| m_stack := map e demo_f ++ below; m_world := w; m_regs := regs' |}.
Proof.
  apply (permutation_correct_partial sem 20 2 demo_f demo_c (add_solved demo_c demo_f []) demo_ids demo_run);
    [lia|exact demo_one_line|exact demo_indices].
Qed.

(* ------------------------------------------------------------------ *)
(** The phase does not always finish although the stack has all the elements of
    the target: one of its assertions fails ... *)
Definition wrong_c := letters "ceaeabdebdccadccee".
Definition wrong_f := letters "ceadbaceccceedead".
Lemma count_other x l : ~ In x l -> count x l = 0%nat.
Proof. induction l as [|y l IH]; cbn; intros H; [auto|]. destruct (String.eqb_spec y x); [tauto|]. cbn. tauto. Qed.
Lemma counts_ok C F : forallb (fun x => (count x F <=? count x C)%nat) F = true -> forall x, (count x F <= count x C)%nat.
Proof.
  intros H x. rewrite forallb_forall in H. destruct (in_dec string_dec x F) as [Hx|Hx].
  - apply Nat.leb_le. auto.
  - rewrite (count_other x F Hx). lia.
Qed.
Theorem permutation_raises_refuted :
  exists C F, (forall x, (count x F <= count x C)%nat) /\
    exists fuel, compute_permut_and_clean fuel 16 F C (add_solved C F []) = Raise AssertionError.
Proof.
  exists wrong_c, wrong_f. split; [apply counts_ok; vm_compute; reflexivity|].
  exists 200%nat. vm_compute. reflexivity.
Qed.
Print Assumptions permutation_raises_refuted.

(** ... or it goes back and forth between two stacks forever. *)
Definition loop_c := letters "dbabadbacdbdbabdccdcaca".
Definition loop_f := letters "dadadabdcdbaabcdbabcb".
Definition loop_state (ids : list string) : pstate :=
  {| p_c := letters "caadadbaabbdbabcb"; p_solved := [19; 14; 11; 10; 9; 7; 5; 13; 12; 15; 16; 17; 20; 18];
     p_reg := letters "ddcd"; p_lpos := -7; p_ids := ids |}.
Lemma loop_state_forever f : forall ids, permut_loop f 16 loop_f (loop_state ids) = Raise OutOfFuel.
Proof.
  induction f as [f IH] using lt_wf_ind. intros ids.
  destruct f as [|[|f]]; [vm_compute; reflexivity|vm_compute; reflexivity|].
  transitivity (permut_loop f 16 loop_f (loop_state ((ids ++ ["SWAP4"]) ++ ["SWAP4"]))); [vm_compute; reflexivity|].
  apply IH. lia.
Qed.
Theorem permutation_diverges_refuted :
  exists C F, (forall x, (count x F <= count x C)%nat) /\
    forall fuel, compute_permut_and_clean fuel 16 F C (add_solved C F []) = Raise OutOfFuel.
Proof.
  exists loop_c, loop_f. split; [apply counts_ok; vm_compute; reflexivity|].
  intros f.
  do 24 (destruct f as [|f]; [vm_compute; reflexivity|]).
  assert (H : exists ids, compute_permut_and_clean (24 + f) 16 loop_f loop_c (add_solved loop_c loop_f []) =
              permut_loop f 16 loop_f (loop_state ids)).
  { eexists. vm_compute. reflexivity. }
  destruct H as (ids & H). exact (eq_trans H (loop_state_forever f ids)).
Qed.
Print Assumptions permutation_diverges_refuted.
