(** C51: the pass that introduces variables for constants leaves the object as it
    is, as long as the formula that decides about them is switched off. *)
From Verif Require Import Base Lexical SymExecModel MachineSpec DepsModel SpecSem UtilModel UtilProps LiveModel CfgModel CfgSpec CfgProps RemoveProps CombineProps JumpModel ProgSem JumpSpec JumpExamples ObjSem ObjProgram ObjExamples ConstModel ConstSpec.
Open Scope string_scope. Open Scope list_scope.

Lemma dict_set_same {A} x (a : A) d : lookup x d = Some a -> dict_set x a d = d.
Proof.
  induction d as [|(y, b) d IH]; cbn; [discriminate|]. destruct (String.eqb y x); [intros H; now injection H as ->|]. intros H. now rewrite (IH H).
Qed.
Lemma put_same x b g : lookup x (cl_blocks g) = Some b -> put_block x b g = g.
Proof. intros H. unfold put_block. rewrite (dict_set_same _ _ _ H). now destruct g. Qed.
Lemma constant_none a : constant_name [] a = a.
Proof. reflexivity. Qed.
Lemma names_combine (l : list string) (l' : list string) : length l = length l' -> map (fun ae => constant_name [] (fst ae)) (combine l l') = l.
Proof. revert l'. induction l as [|x l IH]; intros [|y l']; cbn; intros H; try discriminate; [reflexivity|]. f_equal. apply IH. congruence. Qed.
Lemma use_none b i : (li_op i = "PhiFunction" -> length (li_ins i) = length (cb_entries b)) -> use_names [] b i = i.
Proof.
  intros H. unfold use_names. destruct (String.eqb_spec (li_op i) "PhiFunction") as [E|_].
  - rewrite (names_combine _ _ (H E)). now destruct i.
  - destruct (String.eqb (li_op i) "LiteralAssignment"); [reflexivity|]. change (constant_name []) with (fun a : string => a). rewrite map_id. now destruct i.
Qed.
Lemma block_none b : phis_match b -> insert_constants_block [] b = b.
Proof.
  intros (P & S). unfold insert_constants_block. replace (map (use_names [] b) (cb_instrs b)) with (cb_instrs b).
  - replace (option_map (use_names [] b) (cb_split b)) with (cb_split b); [now destruct b|]. destruct (cb_split b) as [i|]; [|reflexivity]. cbn. f_equal. symmetry. apply use_none. intros E. apply P; [apply S; reflexivity|exact E].
  - rewrite <- (map_id (cb_instrs b)) at 1. apply map_ext_in. intros i I. symmetry. apply use_none. intros E. now apply P.
Qed.

Lemma for_each_total {A S} (f : S -> A -> result S) l : (forall s a, In a l -> exists s', f s a = Ok s') -> forall s, exists s', for_each f l s = Ok s'.
Proof.
  induction l as [|a l IH]; intros H s; cbn; [eauto|]. destruct (H s a (or_introl eq_refl)) as (s1 & E). rewrite E. cbn [bind]. apply IH. intros s0 a0 I. apply H. now right.
Qed.
Lemma noted g : (forall x b, In (x, b) (cl_blocks g) -> phis_match b) -> exists r, constants_of_blocks g = Ok r.
Proof.
  intros P. apply for_each_total. intros s (x, b) I. cbn [fst snd]. apply for_each_total. intros s1 i Ii. apply for_each_total. intros (cs & us) (k, a) Ik. cbn [note_argument].
  destruct (prefix "0x" a && negb (String.eqb (li_op i) "LiteralAssignment")).
  - destruct (String.eqb_spec (li_op i) "PhiFunction") as [E|_]; [|eexists; reflexivity]. destruct (nth_error (cb_entries b) k) as [y|] eqn:N; [eexists; reflexivity|]. apply nth_error_None in N. rewrite <- (proj1 (P x b I) i Ii E) in N.
    apply in_combine_l, in_seq in Ik. lia.
  - destruct (String.eqb (li_op i) "LiteralAssignment"); eexists; reflexivity.
Qed.

(** Induction over trees. *)
Lemma tree_rect' (P : tree -> Prop) : (forall x ts, Forall P ts -> P (Node x ts)) -> forall t, P t.
Proof.
  intros H. fix IH 1. intros [x ts]. apply H. induction ts as [|t ts IHt]; constructor; [apply IH|exact IHt].
Qed.
Lemma preorder_none cs us g : (forall x b, In (x, b) (cl_blocks g) -> phis_match b) -> forall t, (forall x, in_tree x t -> In x (map fst (cl_blocks g))) -> forall free,
  insert_constants_preorder decide_if_propagated cs us t [] (g, free) = Ok (g, free).
Proof.
  intros P. induction t as [x ts IH] using tree_rect'. intros IN free. cbn [insert_constants_preorder].
  assert (L : exists b, lookup x (cl_blocks g) = Some b). { destruct (lookup x (cl_blocks g)) as [b|] eqn:L; [eauto|]. exfalso. apply (lookup_None x (cl_blocks g)) in L. apply L, IN. now constructor. }
  destruct L as (b & L). unfold get_block. rewrite L. cbn [of_option bind]. replace (filter _ (constants_in x cs)) with (@nil string).
  2:{ symmetry. induction (constants_in x cs) as [|c l IHl]; [reflexivity|]. cbn [filter]. unfold decide_if_propagated at 1. rewrite andb_false_r. exact IHl. }
  cbn [fold_left]. rewrite block_none by (apply (P x); now apply lookup_In). rewrite (put_same x b g L).
  assert (IN' : forall t, In t ts -> forall y, in_tree y t -> In y (map fst (cl_blocks g))) by (intros t I y T; apply IN; econstructor; eassumption). clear IN.
  revert free. induction ts as [|t ts IHt]; intros free; [reflexivity|]. inversion IH as [|? ? H1 H2]; subst. rewrite (H1 (IN' t (or_introl eq_refl))). cbn [bind]. apply IHt; [exact H2|]. intros t' I'. apply IN'. now right.
Qed.
Lemma list_none t g : (forall x b, In (x, b) (cl_blocks g) -> phis_match b) -> (forall x, in_tree x t -> In x (map fst (cl_blocks g))) -> insert_constants_list decide_if_propagated t g = Ok g.
Proof.
  intros P IN. unfold insert_constants_list. destruct (noted g P) as ((cs & us) & ->). cbn [bind fst snd]. rewrite (preorder_none cs us g P t IN). reflexivity.
Qed.

(** The object is not changed, and the pass does not fail. *)
Theorem constants_unchanged : forall trees ob, NoDup (map fst (ob_functions ob)) -> phis_match_object ob ->
  (forall c g x, component ob c g -> in_tree x (trees c) -> In x (map fst (cl_blocks g))) ->
  insert_constants trees ob = Ok ob.
Proof.
  intros trees ob ND P IN. unfold insert_constants, insert_constants_with. rewrite (list_none (trees None) (ob_main ob) (P None _ eq_refl) (fun x => IN None _ x eq_refl)). cbn [bind].
  assert (F : forall fs acc, (forall f k, In (f, k) fs -> lookup f (ob_functions ob) = Some k) -> for_each (fun acc fk =>
      do g <- insert_constants_list decide_if_propagated (trees (Some (fst fk))) (fn_blocks (snd fk));
      Ok (acc ++ [(fst fk, {| fn_args := fn_args (snd fk); fn_blocks := g |})])) fs acc = Ok (acc ++ fs)).
  { induction fs as [|(f, k) fs IH]; intros acc H; cbn [for_each]; [now rewrite app_nil_r|]. cbn [fst snd]. pose proof (H f k (or_introl eq_refl)) as L. rewrite (list_none (trees (Some f)) (fn_blocks k)).
    - cbn [bind]. rewrite IH by (intros f' k' I; apply H; now right). rewrite <- app_assoc. cbn. now destruct k.
    - apply (P (Some f)). exists k. auto.
    - intros x. apply (IN (Some f)). exists k. auto. }
  rewrite F; [cbn [bind app]; now destruct ob|]. intros f k I. now apply LevelProps.lookup_NoDup.
Qed.
Print Assumptions constants_unchanged.

(** A loop with phi functions whose arguments are constants. *)
Definition constant_object : cobject := {|
  ob_main := parsed
    [ jmp "E" "H" [ins "calldataload" ["0x00"] ["n"]];
      joined ["E"; "B"] (cnd "H" "c" "X" "B" [ins "PhiFunction" ["0x05"; "0x06"] ["i"]; ins "lt" ["i"; "0x06"] ["c"]]);
      jmp "B" "H" [ins "next_2" ["0x06"] ["j"]];
      fin "X" [ins "sstore" ["i"; "0x06"] []] ];
  ob_functions := [ ("next_2", {| fn_args := ["y"]; fn_blocks := parsed [ ret "next_Block0" ["z"] [ins "add" ["y"; "0x01"] ["z"]] ] |}) ] |}.
Definition constant_trees (c : option string) : tree :=
  match c with None => Node "E" [Node "H" [Node "X" []; Node "B" []]] | Some _ => Node "next_Block0" [] end.
Definition phis_matchb (b : cblock) : bool :=
  forallb (fun i => negb (String.eqb (li_op i) "PhiFunction") || Nat.eqb (length (li_ins i)) (length (cb_entries b))) (cb_instrs b)
  && match cb_split b with Some i => match rev (cb_instrs b) with j :: _ => if instr_dec i j then true else false | [] => false end | None => true end.
Lemma phis_matchb_sound b : phis_matchb b = true -> phis_match b.
Proof.
  intros H. apply andb_true_iff in H as (A & B). split.
  - intros i I E. rewrite forallb_forall in A. specialize (A i I). rewrite E in A. now apply Nat.eqb_eq.
  - intros i E. rewrite E in B. destruct (rev (cb_instrs b)) as [|j l] eqn:R; [discriminate|]. destruct (instr_dec i j) as [->|]; [|discriminate]. apply in_rev. rewrite R. now left.
Qed.
Definition lists (ob : cobject) : list clist := ob_main ob :: map (fun fk => fn_blocks (snd fk)) (ob_functions ob).
Lemma phis_match_objectb_sound ob : forallb (fun g => forallb (fun xb => phis_matchb (snd xb)) (cl_blocks g)) (lists ob) = true -> phis_match_object ob.
Proof.
  intros H c g K x b I. apply phis_matchb_sound. rewrite forallb_forall in H. assert (G : In g (lists ob)).
  { destruct c as [f|]; cbn in K; [|left; exact K]. destruct K as (k & L & <-). right. apply in_map_iff. exists (f, k). split; [reflexivity|]. now apply lookup_In. }
  specialize (H g G). rewrite forallb_forall in H. exact (H (x, b) I).
Qed.
Example constant_unchanged : insert_constants constant_trees constant_object = Ok constant_object.
Proof.
  apply constants_unchanged.
  - repeat constructor; cbn; tauto.
  - apply phis_match_objectb_sound. vm_compute. reflexivity.
  - intros c g x K T. destruct c as [f|]; cbn [component] in K.
    + destruct K as (k & L & <-). apply lookup_In in L as [[= <- <-]|[]]. inversion T as [|? ? ? I]; subst; [now left|destruct I].
    + subst g. cbn [constant_trees] in T. change (map fst (cl_blocks (ob_main constant_object))) with ["E"; "H"; "B"; "X"]. repeat match goal with
        | H : in_tree _ (Node _ _) |- _ => inversion H; clear H; subst
        | H : In _ (_ :: _) |- _ => destruct H as [<-|H]
        | H : In _ [] |- _ => destruct H
        end; cbn; tauto.
Qed.
(** A phi function with more arguments than entries: the pass fails. *)
Example extra_argument : insert_constants (fun _ => Node "E" [Node "H" []]) {|
  ob_main := parsed [ jmp "E" "H" []; joined ["E"] (fin "H" [ins "PhiFunction" ["0x05"; "0x06"] ["i"]; ins "sstore" ["i"; "i"] []]) ]; ob_functions := [] |} = Raise OtherError.
Proof. reflexivity. Qed.

(** The formula of the comment at line 93: a constant of [size] bytes with
    [uses * size >= uses + size + 2] is kept in a variable. *)
Definition formula (c : string) (us : uses) : bool :=
  let size := Nat.div (String.length c - 2) 2 in let n := uses_of c us in Nat.leb (n + size + 2) (n * size).
(** With the formula the pass is wrong: a constant that is introduced in a block
    after its phi functions is also replaced in those phi functions. *)
Definition wide : string := "0x001122334455".
Definition diamond_object : cobject := {|
  ob_main := parsed
    [ cnd "A" "n" "L" "R" [ins "calldataload" ["0x00"] ["n"]];
      jmp "L" "J" [];
      jmp "R" "J" [];
      joined ["L"; "R"] (fin "J" [ins "PhiFunction" ["0x06"; wide] ["i"]; ins "sstore" ["i"; wide] []]) ];
  ob_functions := [] |}.
Definition diamond_trees (c : option string) : tree := Node "A" [Node "L" []; Node "R" []; Node "J" []].
Lemma steps_end {V W} (M : words V W) ob n : forall s m, osteps M n ob s = None -> osteps M (n + m) ob s = None.
Proof. induction n as [|n IH]; intros s m H; cbn in H |- *; [discriminate|]. destruct (ostep M ob s); [now apply IH|reflexivity]. Qed.
Definition diamond_changed : cobject := Eval vm_compute in match insert_constants_with formula diamond_trees diamond_object with Ok ob => ob | Raise _ => diamond_object end.
Definition stopped {V W} (s : option (state V W)) : option (string * list V) := match s with Some (Done op args _) => Some (op, args) | _ => None end.
Lemma stopped_stops {V W} (M : words V W) ob w n op args :
  stopped (match begins_at M ob w with Some s => osteps M n ob s | None => None end) = Some (op, args) -> exists w', stops M ob w op args w'.
Proof.
  destruct (begins_at M ob w) as [s|] eqn:B; [|discriminate]. destruct (osteps M n ob s) as [[|op' args' w']|] eqn:R; try discriminate. intros H. injection H as -> ->. exists w', s, n. auto.
Qed.
Definition done {V W} (s : option (state V W)) : bool := match s with Some (Done _ _ _) => true | _ => false end.
Definition diamond_at (n : nat) : option (state _ _) :=
  match begins_at (machine_words ints nonzero zero) diamond_changed (fun _ => []) with Some s => osteps (machine_words ints nonzero zero) n diamond_changed s | None => None end.
Theorem constants_formula_refuted : exists ob',
  insert_constants_with formula diamond_trees diamond_object = Ok ob'
  /\ (exists w, stops (machine_words ints nonzero zero) diamond_object (fun _ => []) "STOP" [] w)
  /\ forall op args w, ~ stops (machine_words ints nonzero zero) ob' (fun _ => []) op args w.
Proof.
  exists diamond_changed. split; [vm_compute; reflexivity|]. split; [apply (stopped_stops _ _ _ 5); vm_compute; reflexivity|].
  intros op args w (s & n & B & R). assert (D : done (diamond_at n) = true) by (unfold diamond_at; rewrite B, R; reflexivity).
  assert (E : forall m, done (diamond_at (4 + m)) = false).
  { intros m. unfold diamond_at. rewrite B. rewrite (steps_end _ _ 4 s m); [reflexivity|]. assert (Q : diamond_at 4 = None) by (vm_compute; reflexivity). unfold diamond_at in Q. now rewrite B in Q. }
  destruct (le_lt_dec 4 n) as [L|L]; [replace n with (4 + (n - 4)) in D by lia; rewrite E in D; discriminate|].
  assert (F : done (diamond_at 0) = false /\ done (diamond_at 1) = false /\ done (diamond_at 2) = false /\ done (diamond_at 3) = false) by (repeat split; vm_compute; reflexivity).
  clear E R B. destruct F as (F0 & F1 & F2 & F3). destruct n as [|[|[|[|n]]]]; [congruence|congruence|congruence|congruence|lia].
Qed.
Print Assumptions constants_formula_refuted.
