(** C32.  The algebraic rules on 256-bit words. *)
From Verif Require Import Base Lexical SymExecModel AsmModel DepsModel RuleModel RuleSpec.
Open Scope string_scope. Open Scope list_scope. Open Scope Z_scope.

Lemma pow256 : 0 < 2 ^ 256. Proof. apply Z.pow_pos_nonneg; lia. Qed.
Lemma pyval_eqb_eq a b : pyval_eqb a b = true -> a = b.
Proof. destruct a, b; cbn; intros H; try discriminate; [apply Z.eqb_eq in H|apply String.eqb_eq in H]; congruence. Qed.
Lemma is_int_eq z v : is_int z v = true -> v = PInt z.
Proof. intros H. apply pyval_eqb_eq in H. exact H. Qed.
Lemma py_in_two z a b : py_in z [a; b] = true -> is_int z a = true \/ is_int z a = false /\ is_int z b = true.
Proof. unfold py_in. cbn. rewrite orb_false_r. destruct (is_int z a); auto. Qed.
Lemma land_ones z : word z -> Z.land z (2 ^ 256 - 1) = z.
Proof. intros W. replace (2 ^ 256 - 1) with (Z.ones 256) by reflexivity. rewrite Z.land_ones by lia. apply Z.mod_small. exact W. Qed.
Lemma quot_one z : word z -> Z.quot (signed z) (signed 1) mod 2 ^ 256 = z.
Proof.
  intros W. change (signed 1) with 1. rewrite Z.quot_1_r. unfold signed. destruct (z <? 2 ^ 255).
  - apply Z.mod_small. exact W.
  - replace (z - 2 ^ 256) with (z + (-1) * 2 ^ 256) by lia. rewrite Z.mod_add by (pose proof pow256; lia). apply Z.mod_small. exact W.
Qed.

(** Operands are read as integers.  The value returned is that of the operation,
    but for a division of a value by itself when it is 0 and for the shifts. *)
Ltac rule_cases := repeat match goal with
  | H : context [if py_in ?z [?a; ?b] then _ else _] |- _ =>
      let E := fresh "E" in destruct (py_in z [a; b]) eqn:E; [apply py_in_two in E as [E|[? E]]|]
  | H : context [if is_int ?z ?a || is_int ?z ?b then _ else _] |- _ =>
      let E := fresh "E" in let F := fresh "F" in destruct (is_int z a) eqn:E; destruct (is_int z b) eqn:F; cbn [orb] in H
  | H : context [if is_int ?z ?a then _ else _] |- _ => let E := fresh "E" in destruct (is_int z a) eqn:E
  | H : context [if pyval_eqb ?a ?b then _ else _] |- _ => let E := fresh "E" in destruct (pyval_eqb a b) eqn:E
  end;
  repeat match goal with
  | E : is_int _ _ = true |- _ => apply is_int_eq in E; subst
  | E : pyval_eqb _ _ = true |- _ => apply pyval_eqb_eq in E; subst
  end;
  try discriminate;
  repeat match goal with H : Ok (Some _) = Ok (Some _) |- _ => injection H as <- end.
Theorem transform_valid_partial : forall env opcode inp r,
  (forall v, In v inp -> word (operand env v)) ->
  apply_transform_values opcode inp = Ok (Some r) ->
  (opcode = "div" \/ opcode = "sdiv" -> inp <> [] -> exists v, In v inp /\ operand env v <> 0) ->
  opcode <> "shl" -> opcode <> "shr" ->
  evm opcode (map (operand env) inp) = Some (operand env r).
Proof.
  intros env opcode inp r W H Nz N1 N2. pose proof pow256 as P. destruct inp as [|a [|b [|? ?]]]; try discriminate; cbn [apply_transform_values] in H.
  - destruct (String.eqb_spec opcode "iszero") as [->|]; [|discriminate]. cbn. unfold bool_word. rule_cases; reflexivity.
  - assert (Wa : word (operand env a)) by (apply W; left; reflexivity). assert (Wb : word (operand env b)) by (apply W; right; left; reflexivity). unfold word in *.
    destruct (String.eqb_spec opcode "and") as [->|Y1]; [rule_cases; cbn -[Z.pow Z.land]; apply (f_equal (@Some Z)); try change all_ones with (2 ^ 256 - 1);
      first [apply Z.land_diag|apply Z.land_0_l|apply Z.land_0_r|apply land_ones; assumption|rewrite Z.land_comm; apply land_ones; assumption]|].
    destruct (String.eqb_spec opcode "or") as [->|Y2]; [rule_cases; cbn -[Z.pow Z.lor]; apply (f_equal (@Some Z)); first [apply Z.lor_diag|apply Z.lor_0_l|apply Z.lor_0_r]|].
    destruct (String.eqb_spec opcode "xor") as [->|Y3]; [rule_cases; cbn -[Z.pow Z.lxor]; apply (f_equal (@Some Z)); first [apply Z.lxor_nilpotent|apply Z.lxor_0_l|apply Z.lxor_0_r]|].
    destruct (String.eqb_spec opcode "exp") as [->|Y4]; [rule_cases; cbn -[Z.pow Z.modulo]; apply (f_equal (@Some Z)); first [rewrite Z.pow_0_r; reflexivity|rewrite Z.pow_1_r; apply Z.mod_small; assumption|rewrite Z.pow_1_l by lia; reflexivity]|].
    destruct (String.eqb_spec opcode "add") as [->|Y5]; [rule_cases; cbn -[Z.pow Z.modulo Z.add]; apply (f_equal (@Some Z)); first [rewrite Z.add_0_l; apply Z.mod_small; assumption|rewrite Z.add_0_r; apply Z.mod_small; assumption]|].
    destruct (String.eqb_spec opcode "sub") as [->|Y6]; [rule_cases; cbn -[Z.pow Z.modulo Z.sub]; apply (f_equal (@Some Z)); first [rewrite Z.sub_0_r; apply Z.mod_small; assumption|rewrite Z.sub_diag; reflexivity]|].
    destruct (String.eqb_spec opcode "mul") as [->|Y7]; [rule_cases; cbn -[Z.pow Z.modulo Z.mul]; apply (f_equal (@Some Z)); first [rewrite Z.mul_0_l; reflexivity|rewrite Z.mul_0_r; reflexivity|rewrite Z.mul_1_l; apply Z.mod_small; assumption|rewrite Z.mul_1_r; apply Z.mod_small; assumption]|].
    destruct (String.eqb_spec opcode "div") as [->|Y8]; [|destruct (String.eqb_spec opcode "sdiv") as [->|Y9]]; cbn [orb] in H.
    + destruct (Nz (or_introl eq_refl) ltac:(discriminate)) as (v & Iv & Nv). rule_cases; cbn -[Z.pow Z.div Z.eqb]; apply (f_equal (@Some Z));
        first [apply Z.div_1_r|reflexivity|match goal with |- (if ?c then 0 else 0 / _) = _ => destruct c; reflexivity end|idtac].
      assert (Q : operand env b <> 0) by (destruct Iv as [<-|[<-|[]]]; exact Nv). destruct (Z.eqb_spec (operand env b) 0); [contradiction|]. apply Z.div_same. exact Q.
    + destruct (Nz (or_intror eq_refl) ltac:(discriminate)) as (v & Iv & Nv). rule_cases; cbn -[Z.pow Z.quot Z.eqb Z.modulo signed]; apply (f_equal (@Some Z));
        first [apply quot_one; assumption|reflexivity|match goal with |- (if ?c then 0 else Z.quot (signed 0) _ mod _) = _ => destruct c; reflexivity end|idtac].
      assert (Q : operand env b <> 0) by (destruct Iv as [<-|[<-|[]]]; exact Nv). destruct (Z.eqb_spec (operand env b) 0); [contradiction|].
      rewrite Z.quot_same; [reflexivity|]. unfold signed. destruct (_ <? _); lia.
    + destruct (String.eqb_spec opcode "mod") as [->|Y10]; [rule_cases; cbn -[Z.pow Z.modulo Z.eqb]; apply (f_equal (@Some Z));
        first [apply Z.mod_1_r|reflexivity|match goal with |- (if ?x =? 0 then 0 else _) = _ => destruct (Z.eqb_spec x 0); [reflexivity|]; apply Z.mod_same; assumption end]|].
      destruct (String.eqb_spec opcode "eq") as [->|Y11]; [rule_cases; cbn -[Z.eqb]; apply (f_equal (@Some Z)); rewrite Z.eqb_refl; reflexivity|].
      destruct (String.eqb_spec opcode "gt") as [->|Y12]; [|destruct (String.eqb_spec opcode "sgt") as [->|Y13]]; cbn [orb] in H.
      { rewrite andb_false_r in H. rule_cases; cbn -[Z.ltb]; apply (f_equal (@Some Z)); rewrite Z.ltb_irrefl; reflexivity. }
      { rewrite andb_false_r in H. rule_cases; cbn -[Z.ltb signed]; apply (f_equal (@Some Z)); rewrite Z.ltb_irrefl; reflexivity. }
      destruct (String.eqb_spec opcode "lt") as [->|Y14]; [|destruct (String.eqb_spec opcode "slt") as [->|Y15]]; cbn [orb] in H.
      { rewrite andb_false_r in H. rule_cases; cbn -[Z.ltb]; apply (f_equal (@Some Z)); rewrite Z.ltb_irrefl; reflexivity. }
      { rewrite andb_false_r in H. rule_cases; cbn -[Z.ltb signed]; apply (f_equal (@Some Z)); rewrite Z.ltb_irrefl; reflexivity. }
      destruct (String.eqb_spec opcode "shr"), (String.eqb_spec opcode "shl"); try contradiction. discriminate.
Qed.
Print Assumptions transform_valid_partial.
Example transform_valid_example : apply_transform_values "and" [PStr "x"; PInt (2 ^ 256 - 1)] = Ok (Some (PStr "x")).
Proof. reflexivity. Qed.

(** A division by itself is replaced by 1; a shift by 0 by 0; a shift of 0 by the
    amount of the shift. *)
Theorem transform_division_refuted : exists env inp r, (forall v, In v inp -> word (operand env v)) /\
  apply_transform_values "div" inp = Ok (Some r) /\ evm "div" (map (operand env) inp) <> Some (operand env r).
Proof.
  exists (fun _ => 0), [PStr "x"; PStr "x"]. eexists. split; [|split; [reflexivity|vm_compute; discriminate]].
  intros v [<-|[<-|[]]]; vm_compute; split; congruence.
Qed.
Theorem transform_shift_refuted : forall op x n, (op = "shl" \/ op = "shr") -> 0 < n < 256 -> startswith "0x" x = false ->
  (apply_transform_values op [PInt 0; PStr x] = Ok (Some (PInt 0)) /\ evm op [0; n] = Some n) /\
  (apply_transform_values op [PStr x; PInt 0] = Ok (Some (PStr x)) /\ evm op [n; 0] = Some 0).
Proof.
  intros op x n O B N. assert (B2 : 0 <= n < 2 ^ 256) by (split; [lia|]; apply Z.lt_trans with 256; [lia|reflexivity]).
  destruct O as [-> | ->]; (split; (split; [reflexivity|])); cbn -[Z.mul Z.pow Z.modulo Z.div Z.mul]; apply (f_equal (@Some Z)).
  - change (2 ^ 0) with 1. rewrite Z.mul_1_r. apply Z.mod_small. exact B2.
  - reflexivity.
  - apply Z.div_1_r.
  - apply Z.div_0_l. apply Z.pow_nonzero; lia.
Qed.

(** As the value of an operand is never used, only two operands with the same
    text are ever simplified. *)
Theorem transform_same_text_only : forall opcode in_args assigments r,
  apply_transform opcode in_args assigments = Ok (Some r) -> exists x, in_args = [x; x].
Proof.
  intros opcode in_args assigments r H. unfold apply_transform in H.
  destruct (get_input_values in_args assigments) as [inp|] eqn:E; [|discriminate]. cbn [bind] in H.
  assert (Q : inp = map PStr in_args).
  { clear H. revert inp E. unfold get_input_values. induction in_args as [|x l IH]; intros inp E; cbn in E; [injection E as <-; reflexivity|].
    assert (X : get_input_assigment x assigments = Ok (PStr x) \/ exists e, get_input_assigment x assigments = Raise e).
    { unfold get_input_assigment. destruct (py_int16 x); [auto|]. destruct (find _ assigments) as [[k a]|]; [|auto]. destruct (py_int16 a); cbn; eauto. }
    destruct X as [X|(e & X)]; rewrite X in E; [|discriminate]. cbn [bind] in E.
    destruct (map_result _ l) as [ys|] eqn:F; [|discriminate]. cbn [bind] in E. injection E as <-. cbn. f_equal. apply IH. reflexivity. }
  subst inp. clear E. destruct in_args as [|a [|b [|? ?]]]; cbn [map] in H; try discriminate; cbn [apply_transform_values] in H.
  - destruct (opcode =? "iszero")%string; discriminate.
  - assert (G : String.eqb a b = true); [|apply String.eqb_eq in G; subst; eauto].
    change (py_in 0 [PStr a; PStr b]) with false in H. change (py_in 1 [PStr a; PStr b]) with false in H.
    change (is_int 0 (PStr a)) with false in H. change (is_int 0 (PStr b)) with false in H. change (is_int 1 (PStr a)) with false in H.
    change (is_int 1 (PStr b)) with false in H. change (is_int all_ones (PStr a)) with false in H. change (is_int all_ones (PStr b)) with false in H.
    cbn [orb andb pyval_eqb] in H. destruct (String.eqb a b); [reflexivity|].
    repeat match goal with H : context [if ?c then _ else _] |- _ => destruct c end; discriminate.
Qed.
Example transform_same_text_example : apply_transform "xor" ["x"; "x"] [] = Ok (Some (PStr "0x00")).
Proof. reflexivity. Qed.
Print Assumptions transform_shift_refuted.
Print Assumptions transform_same_text_only.

(* ------------------------------------------------------------------ *)
(** ** Rules on several instructions *)
Ltac bits := apply Z.bits_inj'; intros i Hi; repeat (rewrite Z.land_spec || rewrite Z.lor_spec || rewrite Z.lxor_spec || rewrite Z.ldiff_spec || rewrite Z.bits_0);
  repeat match goal with |- context [Z.testbit ?a ?b] => destruct (Z.testbit a b) end; reflexivity.
Lemma not_ldiff a : word a -> 2 ^ 256 - 1 - a = Z.ldiff (Z.ones 256) a.
Proof.
  intros W. assert (L : Z.lor a (Z.ldiff (Z.ones 256) a) = Z.ones 256).
  { assert (E : a = Z.land a (Z.ones 256)) by (rewrite Z.land_ones by lia; symmetry; apply Z.mod_small; exact W). rewrite E. bits. }
  assert (X : Z.land a (Z.ldiff (Z.ones 256) a) = 0) by bits.
  pose proof (Z.add_nocarry_lxor _ _ X) as A. rewrite Z.lxor_lor in A by exact X. rewrite L in A. change (Z.ones 256) with (2 ^ 256 - 1) in *. lia.
Qed.
Lemma word_ones a : word a -> Z.land a (Z.ones 256) = a.
Proof. intros W. rewrite Z.land_ones by lia. apply Z.mod_small. exact W. Qed.
Lemma isz_bool b : (bool_word b =? 0) = negb b.
Proof. destruct b; reflexivity. Qed.
Lemma sub_eq a b : word a -> word b -> ((a - b) mod 2 ^ 256 =? 0) = (a =? b).
Proof.
  intros Wa Wb. unfold word in *. pose proof pow256. destruct (Z.eqb_spec a b) as [->|N]; [rewrite Z.sub_diag; reflexivity|]. apply Z.eqb_neq. intros E.
  destruct (Z.lt_ge_cases a b).
  - assert (Q : (a - b) mod 2 ^ 256 = a - b + 2 ^ 256) by (symmetry; apply Z.mod_unique with (-1); lia). lia.
  - rewrite Z.mod_small in E by lia. lia.
Qed.
Lemma div_shl x y : word x -> word y -> (if (1 * 2 ^ y) mod 2 ^ 256 =? 0 then 0 else x / ((1 * 2 ^ y) mod 2 ^ 256)) = x / 2 ^ y.
Proof.
  intros Wx Wy. unfold word in *. rewrite Z.mul_1_l. destruct (Z.lt_ge_cases y 256).
  - assert (0 < 2 ^ y < 2 ^ 256) by (split; [apply Z.pow_pos_nonneg; lia|apply Z.pow_lt_mono_r; lia]). rewrite Z.mod_small by lia.
    destruct (Z.eqb_spec (2 ^ y) 0); [lia|reflexivity].
  - assert (E : 2 ^ y mod 2 ^ 256 = 0). { replace y with ((y - 256) + 256) by lia. rewrite Z.pow_add_r by lia. apply Z.mod_mul. pose proof pow256. lia. }
    rewrite E. cbn [Z.eqb]. symmetry. apply Z.div_small. split; [lia|]. apply Z.lt_le_trans with (2 ^ 256); [lia|]. apply Z.pow_le_mono_r; lia.
Qed.
Lemma shl_and x y z : word x -> Z.land ((y * 2 ^ x) mod 2 ^ 256) ((z * 2 ^ x) mod 2 ^ 256) = (Z.land y z * 2 ^ x) mod 2 ^ 256.
Proof.
  intros W. unfold word in W. rewrite <- !Z.land_ones by lia. rewrite <- !Z.shiftl_mul_pow2 by lia. rewrite Z.shiftl_land. bits.
Qed.
Lemma exp_zero x : word x -> 0 ^ x mod 2 ^ 256 = bool_word (x =? 0).
Proof. intros W. unfold word in W. destruct (Z.eqb_spec x 0) as [->|N]; [reflexivity|]. rewrite Z.pow_0_l by lia. reflexivity. Qed.

Theorem semantic_rules_valid : forall env name lhs rhs,
  (forall x, word (env x)) -> env "A" < 2 ^ 160 -> In (name, lhs, rhs) semantic_rules ->
  exists v, rvalue env lhs = Some v /\ rvalue env rhs = Some v.
Proof.
  intros env name lhs rhs W A H. pose proof (W "X") as WX. pose proof (W "Y") as WY. pose proof (W "Z") as WZ. pose proof (W "A") as WA.
  assert (W1 : word 1) by (split; [lia|reflexivity]).
  unfold semantic_rules in H. repeat (destruct H as [H|H]; [injection H as <- <- <-; eexists; split; [reflexivity|];
    cbn -[Z.mul Z.pow Z.modulo Z.div Z.land Z.lor Z.lxor Z.eqb Z.ltb Z.sub signed]; apply (f_equal (@Some Z)); rewrite ?isz_bool, ?negb_involutive |]); [..|destruct H].
  - (* ISZ(GT(X,0)) *) unfold bool_word. destruct (Z.eqb_spec (env "X") 0), (Z.ltb_spec 0 (env "X")); cbn; try reflexivity; unfold word in WX; lia.
  - reflexivity.
  - reflexivity.
  - reflexivity.
  - destruct (env "X" =? 0); reflexivity.
  - destruct (env "X" =? 0); reflexivity.
  - unfold bool_word. destruct (Z.eqb_spec (env "X") 0), (Z.ltb_spec 0 (env "X")); cbn; try reflexivity; unfold word in WX; lia.
  - unfold bool_word. destruct (Z.eqb_spec (env "X") 0), (Z.ltb_spec (env "X") 1); cbn; try reflexivity; unfold word in WX; lia.
  - reflexivity.
  - reflexivity.
  - rewrite Z.eqb_sym. reflexivity.
  - reflexivity.
  - reflexivity.
  - bits.
  - bits.
  - bits.
  - bits.
  - bits.
  - bits.
  - bits.
  - bits.
  - bits.
  - bits.
  - bits.
  - bits.
  - bits.
  - bits.
  - bits.
  - bits.
  - bits.
  - bits.
  - bits.
  - bits.
  - f_equal. destruct (Z.eqb_spec (env "X") (env "Y")) as [E|N]; [rewrite E, Z.lxor_nilpotent; reflexivity|]. apply eq_sym, Z.eqb_neq. intros E. apply N, Z.lxor_eq. exact E.
  - lia.
  - rewrite not_ldiff by exact WX. bits.
  - rewrite not_ldiff by exact WX. bits.
  - rewrite not_ldiff by exact WX. transitivity (Z.ones 256); [reflexivity|]. rewrite <- (word_ones (env "X") WX). bits.
  - rewrite not_ldiff by exact WX. transitivity (Z.ones 256); [reflexivity|]. rewrite <- (word_ones (env "X") WX). bits.
  - transitivity (Z.land (env "A") (Z.ones 160)); [|reflexivity]. rewrite Z.land_ones by lia. symmetry. apply Z.mod_small. unfold word in WA. lia.
  - transitivity (Z.land (Z.ones 160) (env "A")); [|reflexivity]. rewrite Z.land_comm, Z.land_ones by lia. symmetry. apply Z.mod_small. unfold word in WA. lia.
  - rewrite sub_eq by assumption. reflexivity.
  - rewrite Z.mul_1_l, Zmult_mod_idemp_r. reflexivity.
  - rewrite Z.mul_1_l, Zmult_mod_idemp_l. f_equal. lia.
  - symmetry. apply div_shl; assumption.
  - symmetry. apply shl_and. exact WX.
  - symmetry. apply exp_zero. exact WX.
  - rewrite Z.mul_1_l. reflexivity.
Qed.
Print Assumptions semantic_rules_valid.
(** One rule does not hold: GT(0,X) is 0, it is replaced by ISZERO(X). *)
Theorem gt_rule_refuted : exists env, (forall x, word (env x)) /\ rvalue env (fst gt_rule) <> rvalue env (snd gt_rule).
Proof. exists (fun _ => 0). split; [intros x; split; [lia|reflexivity]|]. vm_compute. discriminate. Qed.
Example gt_rule_intended : forall x, word x -> evm "gt" [1; x] = evm "iszero" [x].
Proof. intros x W. cbn. f_equal. unfold word in W. destruct (Z.ltb_spec x 1), (Z.eqb_spec x 0); try reflexivity; lia. Qed.
Print Assumptions gt_rule_refuted.
(** The hypotheses of [semantic_rules_valid] hold of the environment where every variable is 5. *)
Example semantic_rules_example : (forall x : string, word ((fun _ => 5) x)) /\ 5 < 2 ^ 160 /\
  In ("DIV(X,SHL(Y,1))", op2 "div" rX (op2 "shl" rY (RConst 1)), op2 "shr" rY rX) semantic_rules /\
  rvalue (fun _ => 5) (op2 "div" rX (op2 "shl" rY (RConst 1))) = Some 0.
Proof. split; [intros _; split; [lia|reflexivity]|]. split; [reflexivity|]. split; [|reflexivity]. unfold semantic_rules. repeat (try (left; reflexivity); right). Qed.
