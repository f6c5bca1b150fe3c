(** C24: renaming is an alpha-renaming. *)
From Verif Require Import Base UtilModel UtilProps UnifyProps LiveModel CfgModel CfgProps RenameModel.
Open Scope string_scope. Open Scope list_scope.

(** ** Specification *)
Definition constant (x : string) : Prop := prefix "0x" x = true.
(** The names written in a block list or function: arguments, inputs and outputs
    of instructions, conditions. *)
Definition block_names (b : cblock) : list string :=
  flat_map (fun i => li_ins i ++ li_outs i) (cb_instrs b) ++ opt_list (cb_cond b).
Definition unit_names (u : cunit) : list string := u_args u ++ flat_map (fun kb => block_names (snd kb)) (cl_blocks (u_blocks u)).
Definition unit_defs (u : cunit) : list string := u_args u ++ flat_map (fun kb => flat_map li_outs (cb_instrs (snd kb))) (cl_blocks (u_blocks u)).
(** Every variable is defined where it is used. *)
Definition closed_names (u : cunit) : Prop := forall x, In x (unit_names u) -> ~ constant x -> In x (unit_defs u).

(** [u'] is [u] with [r] applied to the names and nothing else changed. *)
Definition instr_renamed (r : string -> string) (i i' : linstr) : Prop :=
  li_op i' = li_op i /\ li_ins i' = map r (li_ins i) /\ li_outs i' = map r (li_outs i).
Definition block_renamed (r : string -> string) (b b' : cblock) : Prop :=
  Forall2 (instr_renamed r) (cb_instrs b) (cb_instrs b') /\ cb_cond b' = option_map r (cb_cond b)
  /\ cb_type b' = cb_type b /\ cb_jump_to b' = cb_jump_to b /\ cb_falls_to b' = cb_falls_to b
  /\ cb_comes_from b' = cb_comes_from b /\ cb_entries b' = cb_entries b.
Definition unit_renamed (r : string -> string) (u u' : cunit) : Prop :=
  u_args u' = map r (u_args u) /\ cl_start (u_blocks u') = cl_start (u_blocks u)
  /\ cl_terminal (u_blocks u') = cl_terminal (u_blocks u) /\ cl_return (u_blocks u') = cl_return (u_blocks u)
  /\ Forall2 (fun kb kb' => fst kb' = fst kb /\ block_renamed r (snd kb) (snd kb')) (cl_blocks (u_blocks u)) (cl_blocks (u_blocks u')).

(** ** The dictionary *)
Record fresh_dict (i n : nat) (d : dict) : Prop := {
  fd_le : i <= n;
  fd_range : forall x y, lookup x d = Some y -> exists k, i <= k < n /\ y = ("v" ++ str_nat k)%string;
  fd_inj : forall x x' y, lookup x d = Some y -> lookup x' d = Some y -> x = x'
}.
Lemma v_inj k m : ("v" ++ str_nat k)%string = ("v" ++ str_nat m)%string -> k = m.
Proof. intros H. injection H as H. apply str_nat_inj, H. Qed.
Lemma v_not_constant k : ~ constant ("v" ++ str_nat k)%string.
Proof. unfold constant. simpl. discriminate. Qed.

Lemma next_name_fresh i n d x : fresh_dict i n d -> fresh_dict i (S n) (dict_set x ("v" ++ str_nat n)%string d).
Proof.
  intros [L R I]. split; [lia| |].
  - intros z y. rewrite lookup_dict_set. destruct (String.eqb_spec x z); [intros H; injection H as <-; exists n; split; [lia|reflexivity]|].
    intros H. destruct (R _ _ H) as (k & B & E). exists k. split; [lia|exact E].
  - assert (N : forall z y, lookup z d = Some y -> y <> ("v" ++ str_nat n)%string).
    { intros z y H E. destruct (R _ _ H) as (k & B & E'). subst y. apply v_inj in E'. lia. }
    intros z z' y. rewrite !lookup_dict_set. destruct (String.eqb_spec x z), (String.eqb_spec x z'); try congruence.
    + intros H H'. injection H as <-. destruct (N _ _ H' eq_refl).
    + intros H H'. injection H' as <-. destruct (N _ _ H eq_refl).
    + apply I.
Qed.
Lemma names_fresh l : forall i n d d' n', fresh_dict i n d -> fold_left next_name l (d, n) = (d', n') -> fresh_dict i n' d' /\ n <= n'
  /\ (forall x, lookup x d' <> None <-> lookup x d <> None \/ In x l).
Proof.
  induction l as [|x l IH]; intros i n d d' n' F E.
  - simpl in E. injection E as <- <-. split; [exact F|]. split; [lia|]. simpl. tauto.
  - cbn [fold_left] in E. unfold next_name at 2 in E. cbn [fst snd] in E. destruct (IH i _ _ _ _ (next_name_fresh i n d x F) E) as (A & B & C).
    split; [exact A|]. split; [lia|]. intros z. rewrite C, lookup_dict_set. destruct (String.eqb_spec x z).
    + subst. split; [simpl; auto|]. intros _. left. discriminate.
    + simpl. intuition.
Qed.
Lemma fresh_empty n : fresh_dict n n [].
Proof. split; [lia|discriminate|discriminate]. Qed.

Lemma rename_var_spec d x : rename_var d x = if startswith "0x" x then x else match lookup x d with Some y => y | None => x end.
Proof. reflexivity. Qed.
Lemma rename_unit_renamed d u : unit_renamed (rename_var d) u (rename_unit d u).
Proof.
  unfold unit_renamed, rename_unit, rename_blocks. cbn [u_args u_blocks cl_start cl_terminal cl_return cl_blocks]. do 4 (split; [reflexivity|]).
  induction (cl_blocks (u_blocks u)) as [|[k b] l IH]; simpl; constructor; auto. simpl. split; [reflexivity|].
  unfold block_renamed, rename_block. cbn [cb_instrs cb_cond cb_type cb_jump_to cb_falls_to cb_comes_from cb_entries]. split; [|auto 10].
  induction (cb_instrs b) as [|j js IHj]; simpl; constructor; auto. repeat split.
Qed.

Lemma new_variables_spec u i u' n : new_variables u i = (u', n) ->
  exists d, unit_renamed (rename_var d) u u' /\ fresh_dict i n d /\ (forall x, lookup x d <> None <-> In x (unit_defs u)).
Proof.
  unfold new_variables, renaming_dict_from_instrs. destruct (fold_left next_name (u_args u) ([], i)) as [d1 n1] eqn:E1.
  destruct (fold_left next_name (list_outs (u_blocks u)) (d1, n1)) as [d2 n2] eqn:E2. cbn [fst snd]. intros H. injection H as <- <-.
  destruct (names_fresh _ i _ _ _ _ (fresh_empty i) E1) as (F1 & L1 & K1). destruct (names_fresh _ i _ _ _ _ F1 E2) as (F2 & L2 & K2).
  exists d2. split; [apply rename_unit_renamed|]. split; [exact F2|]. intros x. rewrite K2, K1. simpl. unfold unit_defs. rewrite in_app_iff.
  change (flat_map (fun kb : string * cblock => flat_map li_outs (cb_instrs (snd kb))) (cl_blocks (u_blocks u))) with (list_outs (u_blocks u)). intuition.
Qed.

(** ** The property *)
(** Every block list and function of the object is renamed by its own function
    [r], which is applied to every name and changes nothing else; constants are
    kept and, when variables are defined where they are used, different names get
    different names, in the same function or in two functions. *)
Definition alpha_renamed (us : list cunit) (rs : list (string -> string)) : Prop :=
  (forall n r, nth_error rs n = Some r -> forall x, constant x -> r x = x)
  /\ (forall n u r, nth_error us n = Some u -> nth_error rs n = Some r -> closed_names u ->
        forall x y, In x (unit_names u) -> In y (unit_names u) -> r x = r y -> x = y)
  /\ (forall n m u w r s, n <> m -> nth_error us n = Some u -> nth_error us m = Some w -> nth_error rs n = Some r -> nth_error rs m = Some s ->
        closed_names u -> closed_names w ->
        forall x y, In x (unit_names u) -> In y (unit_names w) -> ~ constant x -> ~ constant y -> r x <> s y).

Lemma renamed_closed d i n u x : fresh_dict i n d -> (forall x, lookup x d <> None <-> In x (unit_defs u)) -> closed_names u -> In x (unit_names u) -> ~ constant x ->
  exists k, i <= k < n /\ lookup x d = Some ("v" ++ str_nat k)%string /\ rename_var d x = ("v" ++ str_nat k)%string.
Proof.
  intros F K C I N. assert (D := C x I N). apply K in D. destruct (lookup x d) as [y|] eqn:L; [|congruence]. destruct (fd_range _ _ _ F _ _ L) as (k & B & ->).
  exists k. split; [exact B|]. split; [reflexivity|]. unfold rename_var. rewrite L. unfold constant, startswith in *. destruct (prefix "0x" x); congruence.
Qed.

Lemma rename_units_spec : forall us i, exists ds, Forall2 (fun d uu => unit_renamed (rename_var d) (fst uu) (snd uu)) ds (combine us (rename_units us i))
  /\ length (rename_units us i) = length us
  /\ (forall n d u, nth_error ds n = Some d -> nth_error us n = Some u -> exists a b, i <= a /\ fresh_dict a b d /\ (forall x, lookup x d <> None <-> In x (unit_defs u))
       /\ forall m d' u', n < m -> nth_error ds m = Some d' -> nth_error us m = Some u' -> exists a' b', b <= a' /\ fresh_dict a' b' d').
Proof.
  induction us as [|u us IH]; intros i; [exists []; repeat split; auto; [constructor|intros [|]; discriminate]|].
  cbn [rename_units]. destruct (new_variables u i) as [u' n] eqn:E. destruct (new_variables_spec _ _ _ _ E) as (d & R & F & K). cbn [fst snd].
  destruct (IH n) as (ds & R' & L & S). exists (d :: ds). split; [simpl; constructor; auto|]. split; [simpl; congruence|].
  intros [|m] d0 u0 H1 H2; simpl in H1, H2.
  - injection H1 as <-. injection H2 as <-. exists i, n. split; [lia|]. split; [exact F|]. split; [exact K|]. intros [|m] d' u1 B H3 H4; [lia|]. simpl in H3, H4.
    destruct (S _ _ _ H3 H4) as (a & b & B1 & F1 & _ & _). exists a, b. auto.
  - destruct (S _ _ _ H1 H2) as (a & b & B1 & F1 & K1 & S1). exists a, b. assert (i <= n) by (destruct F; auto). split; [lia|]. split; [exact F1|]. split; [exact K1|].
    intros [|q] d' u1 B H3 H4; [lia|]. simpl in H3, H4. apply (S1 q d' u1); auto; lia.
Qed.

Theorem renaming_alpha : forall us, exists rs,
  Forall2 (fun r uu => unit_renamed r (fst uu) (snd uu)) rs (combine us (rename_object us))
  /\ length (rename_object us) = length us /\ alpha_renamed us rs.
Proof.
  intros us. destruct (rename_units_spec us 0) as (ds & R & L & S). exists (map rename_var ds). split; [|split; [exact L|]].
  - unfold rename_object. clear S L. induction R; simpl; constructor; auto.
  - assert (MD : forall n r, nth_error (map rename_var ds) n = Some r -> exists d, nth_error ds n = Some d /\ r = rename_var d).
    { intros n r H. rewrite nth_error_map in H. destruct (nth_error ds n) as [d|]; [|discriminate]. injection H as <-. eauto. }
    split; [|split].
    + intros n r H x C. apply MD in H as (d & _ & ->). unfold rename_var, startswith. rewrite C. reflexivity.
    + intros n u r Hu Hr C x y Ix Iy E. apply MD in Hr as (d & Hd & ->). destruct (S _ _ _ Hd Hu) as (a & b & _ & F & K & _).
      destruct (bool_dec (prefix "0x" x) true) as [Cx|Cx], (bool_dec (prefix "0x" y) true) as [Cy|Cy].
      * unfold rename_var, startswith in E. rewrite Cx, Cy in E. exact E.
      * destruct (renamed_closed d a b u y F K C Iy Cy) as (k & _ & _ & Q). rewrite Q in E. unfold rename_var, startswith in E. rewrite Cx in E. exfalso. apply (v_not_constant k). rewrite <- E. exact Cx.
      * destruct (renamed_closed d a b u x F K C Ix Cx) as (k & _ & _ & Q). rewrite Q in E. unfold rename_var, startswith in E. rewrite Cy in E. exfalso. apply (v_not_constant k). rewrite E. exact Cy.
      * destruct (renamed_closed d a b u x F K C Ix Cx) as (k & _ & Lx & Qx). destruct (renamed_closed d a b u y F K C Iy Cy) as (m & _ & Ly & Qy).
        rewrite Qx, Qy in E. rewrite <- E in Ly. eapply fd_inj; eauto.
    + assert (G : forall n m u w r s, n < m -> nth_error us n = Some u -> nth_error us m = Some w -> nth_error (map rename_var ds) n = Some r -> nth_error (map rename_var ds) m = Some s ->
        closed_names u -> closed_names w -> forall x y, In x (unit_names u) -> In y (unit_names w) -> ~ constant x -> ~ constant y -> r x <> s y).
      { intros n m u w r s B Hu Hw Hr Hs Cu Cw x y Ix Iy Nx Ny E. apply MD in Hr as (d & Hd & ->). apply MD in Hs as (d' & Hd' & ->).
        destruct (S _ _ _ Hd Hu) as (a & b & _ & F & K & S1). destruct (S1 m d' w B Hd' Hw) as (a' & b' & LE & F'). destruct (S _ _ _ Hd' Hw) as (a2 & b2 & _ & F2 & K2 & _).
        destruct (renamed_closed d a b u x F K Cu Ix Nx) as (k & Bk & _ & Qx). destruct (renamed_closed d' a' b' w y F' K2 Cw Iy Ny) as (j & Bj & _ & Qy).
        rewrite Qx, Qy in E. apply v_inj in E. lia. }
      intros n m u w r s N. destruct (lt_eq_lt_dec n m) as [[B|B]|B]; [eapply G; eauto|congruence|].
      intros Hu Hw Hr Hs Cu Cw x y Ix Iy Nx Ny E. eapply (G m n w u s r); eauto.
Qed.

(** Without the hypothesis a name that is used but not defined can be captured:
    ["v0"] keeps its name and ["x"] is renamed to it. *)
Definition captured : cunit :=
  {| u_args := ["x"]; u_assign := [];
     u_blocks := {| cl_blocks := [("B", set_cond None (new_block [{| li_op := "add"; li_ins := ["x"; "v0"]; li_outs := ["y"]; li_lits := None |}] "terminal"))];
                    cl_start := Some "B"; cl_terminal := ["B"]; cl_return := [] |} |}.
Theorem renaming_undefined_capture_refuted :
  match rename_object [captured] with
  | [u] => exists b i, lookup "B" (cl_blocks (u_blocks u)) = Some b /\ cb_instrs b = [i] /\ li_ins i = ["v0"; "v0"]
  | _ => False
  end.
Proof. simpl. do 2 eexists. split; [reflexivity|]. split; reflexivity. Qed.

(** Two functions with the same names. *)
Definition sum_unit : cunit :=
  {| u_args := ["x"; "y"]; u_assign := [];
     u_blocks := {| cl_blocks := [("B", set_cond (Some "z") (new_block [{| li_op := "add"; li_ins := ["x"; "0x01"]; li_outs := ["z"]; li_lits := None |}] "conditional"))];
                    cl_start := Some "B"; cl_terminal := []; cl_return := [] |} |}.
Example sum_unit_closed : closed_names sum_unit /\ In "z" (unit_names sum_unit) /\ ~ constant "z".
Proof.
  split; [|split; [simpl; auto 10|vm_compute; discriminate]]. intros x I N. vm_compute in I. vm_compute.
  destruct I as [<-|[<-|[<-|[<-|[<-|[<-|[]]]]]]]; auto. exfalso. apply N. reflexivity.
Qed.
Example sum_units_renamed : map (fun u => (u_args u, map (fun kb => (map li_ins (cb_instrs (snd kb)), cb_cond (snd kb))) (cl_blocks (u_blocks u)))) (rename_object [sum_unit; sum_unit])
  = [(["v0"; "v1"], [([["v0"; "0x01"]], Some "v2")]); (["v3"; "v4"], [([["v3"; "0x01"]], Some "v5")])].
Proof. reflexivity. Qed.

Print Assumptions renaming_alpha.
Print Assumptions renaming_undefined_capture_refuted.
