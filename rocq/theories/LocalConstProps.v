(** C61: variables for constants, block by block. *)
From Verif Require Import Base UtilModel UtilProps LiveModel CfgModel JumpModel ConstModel LocalConstModel LocalConstSpec LocalConstProofs.
Notation lookup := UtilModel.lookup.
Open Scope string_scope. Open Scope list_scope.

(** Along every path of blocks, and whatever the operations do (a push yields its
    constant), the new code ends with the same world and the same values of the
    variables of the old code. *)
Theorem local_constants_keep_runs : forall (V W : Type) const meaning, (forall w c, meaning "push" (Some [c]) w [] = (w, [const c] : list V)) ->
  forall g free g' free', local_constants free g = Ok (g', free') -> (forall n, ~ occurs g ("c" ++ str_nat n)%string) ->
  forall from, (forall x b, In (x, b) (cl_blocks g) -> ~ In from (cb_entries b)) -> forall path e (w : W),
  match run V W const meaning (cl_blocks g) from path (e, w) with
  | Some (e1, w1) => exists e1', run V W const meaning (cl_blocks g') from path (e, w) = Some (e1', w1) /\ forall v, occurs g v -> e1' v = e1 v
  | None => run V W const meaning (cl_blocks g') from path (e, w) = None
  end.
Proof.
  intros V W const meaning M g free g' free' E F from Hf path e w. unfold local_constants in E. destruct (plan_blocks g free) as [[p f]|] eqn:P; cbn [bind fst snd] in E; [|discriminate]. injection E as <- <-. cbn [cl_blocks].
  assert (R := runs_same V W const meaning M p f (cl_blocks g) (plan_blocks_ok _ _ _ P)).
  specialize (R (fun x b i Ib Ii => conj (fun v Iv => fun C => match C with ex_intro _ n Q => F n (ex_intro _ x (ex_intro _ b (ex_intro _ i (conj Ib (conj Ii (or_introl (eq_ind v (fun u => In u (li_ins i)) Iv _ Q))))))) end)
    (fun v Iv => fun C => match C with ex_intro _ n Q => F n (ex_intro _ x (ex_intro _ b (ex_intro _ i (conj Ib (conj Ii (or_intror (eq_ind v (fun u => In u (li_outs i)) Iv _ Q))))))) end))
    path from e e w (fun v _ => eq_refl) (or_intror Hf)).
  destruct (run V W const meaning (cl_blocks g) from path (e, w)) as [[e1 w1]|]; [|exact R]. destruct R as (e1' & E1 & A). exists e1'. split; [exact E1|]. intros v O. apply A. intros (n & ->). exact (F n O).
Qed.
Print Assumptions local_constants_keep_runs.

(** Only literal assignments still have constants as arguments. *)
Theorem no_constant_arguments_left : forall g free g' free', local_constants free g = Ok (g', free') ->
  forall x b i a, In (x, b) (cl_blocks g') -> In i (cb_instrs b) -> li_op i <> "LiteralAssignment" -> In a (li_ins i) -> prefix "0x" a = false.
Proof.
  intros g free g' free' E x b' i a Ib Ii O Ia. unfold local_constants in E. destruct (plan_blocks g free) as [[p f]|] eqn:P; cbn [bind fst snd] in E; [|discriminate]. injection E as <- <-. cbn [cl_blocks] in Ib.
  apply in_map_iff in Ib as ([y b] & Q & Ib). cbn [fst snd] in Q. injection Q as -> <-. rewrite block_code in Ii. assert (N := plan_blocks_ok _ _ _ P). assert (C := plan_blocks_cover _ _ _ P).
  assert (K : (exists j, planned p x b j = i /\ In j (cb_instrs b)) \/ li_ins i = []).
  { apply in_app_iff in Ii as [I|I]; [|apply in_app_iff in I as [I|I]].
    - apply in_map_iff in I as (j & Q & I). left. exists j. split; [exact Q|]. rewrite <- (firstn_skipn (first_other (cb_instrs b))). apply in_app_iff. left. exact I.
    - right. apply in_rev, in_map_iff in I as (cv & <- & _). reflexivity.
    - apply in_map_iff in I as (j & Q & I). left. exists j. split; [exact Q|]. rewrite <- (firstn_skipn (first_other (cb_instrs b))). apply in_app_iff. right. exact I. }
  destruct K as [(j & <- & Ij)|K]; [|rewrite K in Ia; destruct Ia]. rewrite planned_op in O. unfold planned in Ia. destruct (String.eqb (li_op j) "PhiFunction") eqn:Ph.
  - cbn [li_ins with_ins] in Ia. apply in_map_iff in Ia as ([a0 y] & <- & Ia). cbn [fst snd]. apply (name_no_constant f); [exact (N y)|]. intros Pa.
    assert (Nk : exists k, nth_error (li_ins j) k = Some a0 /\ nth_error (cb_entries b) k = Some y).
    { clear -Ia. revert Ia. generalize (cb_entries b). induction (li_ins j) as [|c l IH]; intros [|z m]; cbn; try tauto. intros [Q|I]; [injection Q as -> ->; exists 0; auto|]. destruct (IH m I) as (k & K). exists (S k). exact K. }
    destruct Nk as (k & K1 & K2). refine (C x b j k a0 Ib Ij K1 Pa O y _). rewrite Ph. exact K2.
  - destruct (String.eqb_spec (li_op j) "LiteralAssignment") as [|_]; [contradiction|]. cbn [li_ins with_ins] in Ia. apply in_map_iff in Ia as (a0 & <- & Ia). apply (name_no_constant f); [exact (N x)|]. intros Pa.
    apply In_nth_error in Ia as (k & K). refine (C x b j k a0 Ib Ij K Pa O x _). rewrite Ph. reflexivity.
Qed.
Print Assumptions no_constant_arguments_left.

(** A new variable is assigned by one push of one block: the code stays in single
    assignment form. *)
Theorem constants_assigned_once : forall g free g' free', local_constants free g = Ok (g', free') -> (forall n, ~ occurs g ("c" ++ str_nat n)%string) ->
  forall n x b i x' b' i', In (x, b) (cl_blocks g') -> In i (cb_instrs b) -> In ("c" ++ str_nat n)%string (li_outs i) ->
  In (x', b') (cl_blocks g') -> In i' (cb_instrs b') -> In ("c" ++ str_nat n)%string (li_outs i') ->
  x = x' /\ i = i' /\ n < free' /\ exists c, i = {| li_op := "push"; li_ins := []; li_outs := [("c" ++ str_nat n)%string]; li_lits := Some [c] |}.
Proof.
  intros g free g' free' E F. unfold local_constants in E. destruct (plan_blocks g free) as [[p f]|] eqn:P; cbn [bind fst snd] in E; [|discriminate]. injection E as <- <-. cbn [cl_blocks].
  destruct (plan_blocks_once _ _ _ P) as (N & U).
  assert (K : forall n x b i, In (x, b) (map (fun xb => (fst xb, plan_block p (fst xb) (snd xb))) (cl_blocks g)) -> In i (cb_instrs b) -> In ("c" ++ str_nat n)%string (li_outs i) ->
    exists c, In (c, ("c" ++ str_nat n)%string) (names_of p x) /\ i = push_constant ("c" ++ str_nat n)%string c).
  { intros n x b' i Ib Ii Io. apply in_map_iff in Ib as ([y b] & Q & Ib). cbn [fst snd] in Q. injection Q as -> <-. rewrite block_code in Ii.
    assert (Old : forall j, In j (cb_instrs b) -> planned p x b j = i -> False). { intros j Ij <-. rewrite planned_outs in Io. apply (F n). exists x, b, j. auto. }
    apply in_app_iff in Ii as [I|I]; [|apply in_app_iff in I as [I|I]].
    - apply in_map_iff in I as (j & Q & I). exfalso. apply (Old j); [|exact Q]. rewrite <- (firstn_skipn (first_other (cb_instrs b))). apply in_app_iff. left. exact I.
    - apply in_rev, in_map_iff in I as ([c v] & <- & I). cbn [fst snd push_constant li_outs] in *. destruct Io as [->|[]]. exists c. auto.
    - apply in_map_iff in I as (j & Q & I). exfalso. apply (Old j); [|exact Q]. rewrite <- (firstn_skipn (first_other (cb_instrs b))). apply in_app_iff. right. exact I. }
  intros n x b i x' b' i' Ib Ii Io Ib' Ii' Io'. destruct (K _ _ _ _ Ib Ii Io) as (c & I1 & ->), (K _ _ _ _ Ib' Ii' Io') as (c' & I2 & ->). destruct (U _ _ _ _ _ I1 I2) as (-> & ->).
  split; [reflexivity|]. split; [reflexivity|]. split; [|exists c'; reflexivity]. destruct (no_in _ _ (N x') _ _ I1) as (_ & m & Lm & Q). injection Q as Q. apply str_nat_inj in Q. subst m. exact Lm.
Qed.
Print Assumptions constants_assigned_once.

(** A loop: the constant of the phi function is pushed in the block it comes from, the others where they are used. *)
Definition code_of (entries : list string) (code : list linstr) : cblock :=
  {| cb_instrs := code; cb_type := "sub_block"; cb_jump_to := None; cb_falls_to := None; cb_cond := None; cb_comes_from := entries; cb_entries := entries; cb_split := None |}.
Definition op (o : string) (ins outs : list string) : linstr := {| li_op := o; li_ins := ins; li_outs := outs; li_lits := None |}.
Definition looping : clist := {| cl_blocks := [
  ("E", code_of [] [op "LiteralAssignment" ["0x07"] ["a"]; op "sstore" ["0x01"; "a"] []]);
  ("H", code_of ["E"; "B"] [op "PhiFunction" ["0x00"; "j"] ["i"]; op "lt" ["i"; "0x0a"] ["d"]]);
  ("B", code_of ["H"] [op "add" ["i"; "0x01"] ["j"]; op "sstore" ["0x01"; "j"] []]);
  ("X", code_of ["H"] [op "return" ["0x00"; "0x00"] []])]; cl_start := Some "E"; cl_terminal := ["X"]; cl_return := [] |}.
Definition looping_new : clist := {| cl_blocks := [
  ("E", code_of [] [op "LiteralAssignment" ["0x07"] ["a"]; push_constant "c1" "0x00"; push_constant "c0" "0x01"; op "sstore" ["c0"; "a"] []]);
  ("H", code_of ["E"; "B"] [op "PhiFunction" ["c1"; "j"] ["i"]; push_constant "c2" "0x0a"; op "lt" ["i"; "c2"] ["d"]]);
  ("B", code_of ["H"] [push_constant "c3" "0x01"; op "add" ["i"; "c3"] ["j"]; op "sstore" ["c3"; "j"] []]);
  ("X", code_of ["H"] [push_constant "c4" "0x00"; op "return" ["c4"; "c4"] []])]; cl_start := Some "E"; cl_terminal := ["X"]; cl_return := [] |}.
Example looping_constants : local_constants 0 looping = Ok (looping_new, 5).
Proof. vm_compute. reflexivity. Qed.
Lemma looping_fresh n : ~ occurs looping ("c" ++ str_nat n)%string.
Proof.
  intros (x & b & i & Ib & Ii & Iv).
  assert (C : forallb (fun xb => forallb (fun i => forallb (fun v => negb (prefix "c" v)) (li_ins i ++ li_outs i)) (cb_instrs (snd xb))) (cl_blocks looping) = true) by reflexivity.
  rewrite forallb_forall in C. specialize (C _ Ib). rewrite forallb_forall in C. specialize (C _ Ii). rewrite forallb_forall in C. specialize (C _ (proj2 (in_app_iff _ _ _) Iv)). cbn in C. destruct (str_nat n); discriminate C.
Qed.
Lemma looping_from x b : In (x, b) (cl_blocks looping) -> ~ In "" (cb_entries b).
Proof.
  intros Ib I. assert (C : forallb (fun xb => forallb (fun v => negb (String.eqb v "")) (cb_entries (snd xb))) (cl_blocks looping) = true) by reflexivity.
  rewrite forallb_forall in C. specialize (C _ Ib). rewrite forallb_forall in C. specialize (C _ I). discriminate C.
Qed.
(** A meaning that keeps the operations and their arguments in the world. *)
Definition traced (o : string) (lits : option (list string)) (w : list (string * list string)) (args : list string) : list (string * list string) * list string :=
  if String.eqb o "push" then (w, match lits with Some l => l | None => [] end) else (w ++ [(o, args)], [(o ++ "(" ++ String.concat "," args ++ ")")%string]).
Example looping_runs : forall path, option_map snd (run string (list (string * list string)) (fun c => c) traced (cl_blocks looping_new) "" path (fun v => v, [])) = option_map snd (run string (list (string * list string)) (fun c => c) traced (cl_blocks looping) "" path (fun v => v, [])).
Proof.
  intros path. assert (R := local_constants_keep_runs string (list (string * list string)) (fun c => c) traced (fun w c => eq_refl) looping 0 looping_new 5 looping_constants looping_fresh "" looping_from path (fun v => v) []).
  cbv beta in R. match type of R with match ?t with _ => _ end => destruct t as [[e1 w1]|] eqn:T end; [destruct R as (e1' & R & _)|]; unfold env in *; etransitivity; [exact (f_equal (option_map snd) R)|symmetry; exact (f_equal (option_map snd) T)|exact (f_equal (option_map snd) R)|symmetry; exact (f_equal (option_map snd) T)].
Qed.
Example looping_trace : option_map snd (run string _ (fun c => c) traced (cl_blocks looping_new) "" ["E"; "H"; "B"; "H"; "X"] (fun v => v, [])) =
  Some [("LiteralAssignment", ["0x07"]); ("sstore", ["0x01"; "LiteralAssignment(0x07)"]); ("lt", ["0x00"; "0x0a"]); ("add", ["0x00"; "0x01"]); ("sstore", ["0x01"; "add(0x00,0x01)"]); ("lt", ["add(0x00,0x01)"; "0x0a"]); ("return", ["0x00"; "0x00"])].
Proof. vm_compute. reflexivity. Qed.
Example looping_no_constants : forall x b i a, In (x, b) (cl_blocks looping_new) -> In i (cb_instrs b) -> li_op i <> "LiteralAssignment" -> In a (li_ins i) -> prefix "0x" a = false.
Proof. exact (no_constant_arguments_left looping 0 looping_new 5 looping_constants). Qed.
Example looping_once : forall x b i, In (x, b) (cl_blocks looping_new) -> In i (cb_instrs b) -> In ("c" ++ str_nat 2)%string (li_outs i) -> x = "H".
Proof.
  intros x b i Ib Ii Io. refine (proj1 (constants_assigned_once looping 0 looping_new 5 looping_constants looping_fresh 2 x b i "H" _ (push_constant "c2" "0x0a") Ib Ii Io _ _ _)); [right; left; reflexivity|right; left; reflexivity|left; reflexivity].
Qed.

(** The names are not checked against those of the program: a variable of the
    program with such a name is overwritten, and the store takes the constant. *)
Definition captured : clist := {| cl_blocks := [("E", code_of [] [op "LiteralAssignment" ["0x07"] ["c0"]; op "sstore" ["0x01"; "c0"] []])]; cl_start := Some "E"; cl_terminal := ["E"]; cl_return := [] |}.
Theorem local_constants_any_names_refuted : ~ (forall g free g' free', local_constants free g = Ok (g', free') ->
  forall path, option_map snd (run string _ (fun c => c) traced (cl_blocks g') "" path (fun v => v, [])) = option_map snd (run string _ (fun c => c) traced (cl_blocks g) "" path (fun v => v, []))).
Proof. intros H. assert (C := H captured 0 _ _ eq_refl ["E"]). vm_compute in C. discriminate C. Qed.
Print Assumptions local_constants_any_names_refuted.
