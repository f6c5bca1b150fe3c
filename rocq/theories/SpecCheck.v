(** A sufficient boolean test for [ssa_block], used to show that concrete
    blocks satisfy the hypotheses of the theorems. *)
From Verif Require Import Base Lexical SymExecModel AsmModel MachineSpec DepsModel SpecModel SpecSem SpecProofs SpecBuild SpecSound SpecDce.
Open Scope string_scope. Open Scope list_scope.

Definition user_nameb (x : string) : bool :=
  negb (startswith "0x" x) && negb (x =? "bottom") &&
  match x with String c r => if ascii_dec c "s" then negb (forallb is_digit_char (list_ascii_of_string r)) else true | EmptyString => true end.
Lemma user_nameb_ok x : user_nameb x = true -> user_name x.
Proof.
  unfold user_nameb. rewrite !andb_true_iff, !negb_true_iff. intros [[H1 H2] H3]. split; [exact H1|].
  split; [intros ->; discriminate|]. intros n ->. change (negb (forallb is_digit_char (list_ascii_of_string (str_nat n))) = true) in H3.
  rewrite negb_true_iff in H3. assert (forallb is_digit_char (list_ascii_of_string (str_nat n)) = true); [|congruence].
  apply forallb_forall. intros c. apply str_nat_digits.
Qed.

Definition lit_okb (v : string) : bool :=
  startswith "0x" v && match py_int16 v with Some z => (0 <=? z)%Z | None => false end.
Lemma lit_okb_ok v : lit_okb v = true -> lit_ok v.
Proof.
  unfold lit_okb. rewrite andb_true_iff. intros [H1 H2]. split; [exact H1|].
  destruct (py_int16 v) as [z|]; [|discriminate]. exists z. split; [reflexivity|]. now apply Z.leb_le.
Qed.

Definition supportedb (i : cins) : bool :=
  if c_op i =? "LiteralAssignment" then
    match c_in i, c_out i with [v], [_] => startswith "0x" v | _, _ => false end
  else if c_op i =? "push" then
    match c_in i, c_out i, c_lit i with
    | [], [_], Some [l] => match py_int16 l with Some z => (0 <? z)%Z | None => false end
    | _, _, _ => false end
  else if c_op i =? "PUSH [tag]" then
    match c_in i, c_out i with [], [t] => match py_int t with Some z => (0 <=? z)%Z | None => false end | _, _ => false end
  else if mem (c_op i) ["pushlib"; "push #[$]"; "push [$]"; "pushimmutable"; "pushsize"] then
    match c_lit i, c_in i with Some (_ :: _), [] => (length (c_out i) =? 1)%nat | _, _ => false end
  else mem (upper (c_op i)) opcode_keys && negb (mem (c_op i) opcode_keys) && negb (startswith "PUSH" (upper (c_op i)))
    && negb (upper (c_op i) =? "POP") && (lower (upper (c_op i)) =? c_op i) && negb (c_op i =? "assignimmutable").
Lemma supportedb_ok i : supportedb i = true -> supported i.
Proof.
  unfold supportedb. destruct (String.eqb_spec (c_op i) "LiteralAssignment") as [E|_].
  { destruct (c_in i) as [|v []] eqn:I; try discriminate. destruct (c_out i) as [|x []] eqn:O; try discriminate.
    intros. eapply SupLit; eauto. }
  destruct (String.eqb_spec (c_op i) "push") as [E|_].
  { destruct (c_in i) eqn:I; try discriminate. destruct (c_out i) as [|x []] eqn:O; try discriminate.
    destruct (c_lit i) as [[|l []]|] eqn:L; try discriminate. destruct (py_int16 l) as [z|] eqn:Z; [|discriminate].
    intros Q. apply Z.ltb_lt in Q. eapply SupPush; eauto. lia. }
  destruct (String.eqb_spec (c_op i) "PUSH [tag]") as [E|_].
  { destruct (c_in i) eqn:I; try discriminate. destruct (c_out i) as [|x []] eqn:O; try discriminate.
    destruct (py_int x) as [z|] eqn:Z; [|discriminate]. intros Q. apply Z.leb_le in Q. eapply SupTag; eauto. }
  destruct (mem (c_op i) _) eqn:M.
  { apply mem_In in M. destruct (c_lit i) as [[|l ls]|] eqn:L; try discriminate. destruct (c_in i) eqn:I; try discriminate.
    intros Q. apply Nat.eqb_eq in Q. eapply SupPushOp; eauto. }
  rewrite !andb_true_iff, !negb_true_iff. intros (((((H1 & H2) & H3) & H4) & H5) & H6).
  apply SupPlain; auto.
  - intros Q. rewrite Q in H4. discriminate.
  - now apply String.eqb_eq.
  - intros Q. rewrite Q in H6. discriminate.
Qed.

Fixpoint nodupb (l : list string) : bool :=
  match l with [] => true | x :: l => negb (mem x l) && nodupb l end.
Lemma nodupb_ok l : nodupb l = true -> NoDup l.
Proof.
  induction l as [|x l IH]; simpl; [constructor|]. rewrite andb_true_iff, negb_true_iff. intros [H1 H2].
  constructor; auto. now apply mem_false.
Qed.

Fixpoint defsb (instrs : list cins) : bool :=
  match instrs with
  | [] => true
  | i :: rest => forallb (fun x => negb (mem x (flat_map c_out (i :: rest)))) (c_in i) && defsb rest
  end.
Lemma defsb_ok instrs : defsb instrs = true ->
  forall pre i post x, instrs = pre ++ i :: post -> In x (c_in i) -> ~ In x (flat_map c_out (i :: post)).
Proof.
  induction instrs as [|j instrs IH]; intros H pre i post x E Hx; [destruct pre; discriminate|].
  cbn [defsb] in H. apply andb_true_iff in H as [H1 H2]. destruct pre as [|p pre]; simpl in E.
  - injection E as -> ->. rewrite forallb_forall in H1. apply mem_false, negb_true_iff, H1, Hx.
  - injection E as -> ->. eapply IH; eauto.
Qed.

Definition lit_key (l : option (list string)) : list string := match l with Some l => "+" :: l | None => [] end.
Definition lits_eqb (a b : option (list string)) : bool := if list_eq_dec string_dec (lit_key a) (lit_key b) then true else false.
Fixpoint pushb (instrs : list cins) : bool :=
  match instrs with
  | [] => true
  | i :: rest => (negb (mem (c_op i) push_ops) || forallb (fun j => negb ((c_op i =? c_op j) && lits_eqb (c_lit i) (c_lit j))) rest) && pushb rest
  end.
Lemma pushb_ok instrs : pushb instrs = true -> forall i j m n, nth_error instrs m = Some i -> nth_error instrs n = Some j ->
  m <> n -> In (c_op i) push_ops -> c_op i = c_op j -> c_lit i <> c_lit j.
Proof.
  assert (L : forall i j m n, pushb instrs = true -> nth_error instrs m = Some i -> nth_error instrs n = Some j ->
    m < n -> In (c_op i) push_ops -> c_op i = c_op j -> c_lit i <> c_lit j).
  { induction instrs as [|k instrs IH]; intros i j m n H Hm Hn L P E Q; [destruct m; discriminate|].
    cbn [pushb] in H. apply andb_true_iff in H as [H1 H2]. destruct n as [|n]; [lia|]. destruct m as [|m].
    - simpl in Hm. injection Hm as ->. apply mem_In in P. rewrite P in H1. simpl in H1.
      rewrite forallb_forall in H1. specialize (H1 j (nth_error_In instrs n Hn)). rewrite E, Q in H1.
      rewrite String.eqb_refl in H1. unfold lits_eqb in H1. destruct list_eq_dec in H1; [discriminate|contradiction].
    - simpl in Hm, Hn. apply (IH i j m n); auto. lia. }
  intros H i j m n Hm Hn N P E. destruct (Nat.lt_trichotomy m n) as [?|[?|?]]; [eauto|contradiction|].
  intros Q. apply (L j i n m); auto. rewrite <- E. exact P.
Qed.

Definition ssa_blockb (instrs : list cins) (initial : list string) : bool :=
  forallb supportedb instrs && nodupb (flat_map c_out instrs) && forallb user_nameb (flat_map c_out instrs)
  && forallb (fun x => lit_okb x || user_nameb x) (flat_map c_in instrs) && defsb instrs
  && forallb (fun x => user_nameb x && negb (mem x (flat_map c_out instrs))) initial && pushb instrs.
Lemma ssa_blockb_ok instrs initial : ssa_blockb instrs initial = true -> ssa_block instrs initial.
Proof.
  unfold ssa_blockb. rewrite !andb_true_iff, !forallb_forall. intros ((((((H1 & H2) & H3) & H4) & H5) & H6) & H7).
  constructor.
  - intros i Hi. apply supportedb_ok, H1, Hi.
  - now apply nodupb_ok.
  - intros i x Hi Hx. apply user_nameb_ok, H3, in_flat_map. eauto.
  - intros i x Hi Hx. specialize (H4 x (proj2 (in_flat_map _ _ _) (ex_intro _ i (conj Hi Hx)))).
    apply orb_true_iff in H4 as [Q|Q]; [left; now apply lit_okb_ok|right; now apply user_nameb_ok].
  - apply defsb_ok, H5.
  - intros x Hx. specialize (H6 x Hx). rewrite andb_true_iff, negb_true_iff, mem_false in H6.
    split; [apply user_nameb_ok|]; tauto.
  - apply pushb_ok, H7.
  - intros i l z Hi E El v Hv Hz. specialize (H1 i Hi). unfold supportedb in H1. rewrite E in H1. simpl in H1.
    rewrite El in H1. destruct (c_in i); [|discriminate]. destruct (c_out i) as [|? []]; try discriminate.
    destruct l as [|l0 []]; try discriminate. destruct Hv as [<-|[]]. rewrite Hz in H1. apply Z.ltb_lt in H1. lia.
Qed.

Definition layout_nameb (v : string) : bool := user_nameb v || lit_okb v || (v =? "bottom").
Lemma layout_nameb_ok l : forallb layout_nameb l = true -> forall v, In v l -> layout_name v.
Proof.
  rewrite forallb_forall. intros H v Hv. specialize (H v Hv). unfold layout_nameb in H. rewrite !orb_true_iff in H.
  destruct H as [[H|H]|H]; [left; now apply user_nameb_ok|right; left; now apply lit_okb_ok|right; right; now apply String.eqb_eq].
Qed.
