(** C36: inlining, second part: the executions after inlining. *)
From Verif Require Import Base UtilModel UtilProps UnifyProps LiveModel CfgModel CfgSpec CfgProps CombineProps RenameModel RenameProps InlineModel InlineProps.
Open Scope string_scope. Open Scope list_scope.

(** ** Specification *)
Definition rename_event (d : dict) (e : event) : event :=
  match e with Do i => Do (rename_instr d i) | Test v taken => Test (rename_var d v) taken end.
Definition no_returns (t : list event) : list event :=
  filter (fun e => match e with Do i => negb (String.eqb (li_op i) "functionReturn") | Test _ _ => true end) t.
(** The calling block splits into what is before the call, what is after. *)
Section Spec.
Variables (g : clist) (id : string) (b : cblock) (pos : nat) (f : cfun) (σ ρ : dict) (phis : list linstr).
Let F := f_blocks f.
Definition enters (w : list string) : Prop := walk F w /\ hd_error w = cl_start F.
Definition before : list event := map (rename_event ρ) (map Do (firstn pos (cb_instrs b))).
Definition body (w : list string) : list event := map (rename_event ρ) (map (rename_event σ) (no_returns (trace F w))).
Definition after : list event := map (rename_event ρ) (map Do (phis ++ skipn (pos + 1) (cb_instrs b))).
(** [inlined p q t]: when the caller goes through [p], the new graph can go
    through [q], doing [t].  Each visit to the calling block does what was before
    the call, then goes through the function from its start to one of its exits,
    then does what was after the call. *)
Inductive inlined : list string -> list string -> list event -> Prop :=
| inlined_last x : x <> id -> In x (map fst (cl_blocks g)) -> inlined [x] [x] (map (rename_event ρ) (actions g x))
| inlined_step x y p q t : x <> id -> edge g x y -> inlined (y :: p) q t ->
    inlined (x :: y :: p) (x :: q) (map (rename_event ρ) (actions g x ++ branch g x y) ++ t)
| inlined_enter : inlined [id] [first_id id] before
| inlined_inside w : enters w -> inlined [id] (first_id id :: w) (before ++ body w)
| inlined_return w e : enters (w ++ [e]) -> In e (cl_return F) ->
    inlined [id] (first_id id :: w ++ e :: [second_id id]) (before ++ body (w ++ [e]) ++ after)
| inlined_call w e y p q t : enters (w ++ [e]) -> In e (cl_return F) -> edge g id y -> inlined (y :: p) q t ->
    inlined (id :: y :: p) (first_id id :: w ++ e :: second_id id :: q)
      (before ++ body (w ++ [e]) ++ after ++ map (rename_event ρ) (branch g id y) ++ t).
End Spec.
(** "functionReturn" is only the last instruction of the exits. *)
Definition is_functionReturn (i : linstr) : bool := String.eqb (li_op i) "functionReturn".
Definition returns_at_exits (F : clist) : Prop := forall x bf, lookup x (cl_blocks F) = Some bf ->
  length (filter is_functionReturn (cb_instrs bf)) <= if mem x (cl_return F) then 1 else 0.

(** ** Links *)
Section Walks.
Variables (g : clist) (id : string) (b : cblock) (pos : nat) (call : linstr) (f : cfun) (ret : string -> list string).
Variables (start : string) (g' : clist) (phis : list linstr).
Let F := f_blocks f.
Let exits := cl_return F.
Let σ := formals_to_actuals call f.
Let ρ := results_to_returned call f ret.
Hypothesis I : inlinable g id b pos call f ret.
Hypothesis ST : cl_start F = Some start.
Hypothesis ND' : NoDup (map fst (cl_blocks g')).
Hypothesis LG : forall x, lookup x (cl_blocks g') = if String.eqb x (second_id id) then Some (rename_block ρ (after_call id b pos f phis))
        else if String.eqb x (first_id id) then Some (rename_block ρ (before_call id b pos start))
        else if String.eqb x id then None
        else match lookup x (cl_blocks F) with Some bf => Some (final id call f ret start x bf)
             | None => option_map (fun b0 => rename_block ρ (edit id b0)) (lookup x (cl_blocks g)) end.
Hypothesis SG : cl_start g' = (if opt_eqb (Some id) (cl_start g) then Some (first_id id) else cl_start g).
Hypothesis TG : forall x, In x (cl_terminal g') <-> has_type ["FunctionReturn"; "mainExit"; "terminal"] g' x.
Hypothesis RG : forall x, In x (cl_return g') <-> has_type ["FunctionReturn"] g' x.

Let CG := in_caller _ _ _ _ _ _ _ I.
Let CF := in_callee _ _ _ _ _ _ _ I.
Lemma id_block : lookup id (cl_blocks g) = Some b. Proof. apply (sp_lookup _ _ _ (in_split _ _ _ _ _ _ _ I)). Qed.
Lemma key_F x : In x (map fst (cl_blocks F)) -> ~ In x (map fst (cl_blocks g)) /\ x <> first_id id /\ x <> second_id id /\ x <> id.
Proof. intros H. destruct (in_apart _ _ _ _ _ _ _ I x H) as (H1 & H2 & H3). repeat split; auto. intros ->. apply H1. eapply lookup_In_key, id_block. Qed.
Lemma first_new : ~ In (first_id id) (map fst (cl_blocks g)). Proof. apply (sp_first _ _ _ (in_split _ _ _ _ _ _ _ I)). Qed.
Lemma second_new : ~ In (second_id id) (map fst (cl_blocks g)). Proof. apply (sp_second _ _ _ (in_split _ _ _ _ _ _ _ I)). Qed.
Lemma key_g x : In x (map fst (cl_blocks g)) -> x <> first_id id /\ x <> second_id id /\ lookup x (cl_blocks F) = None.
Proof.
  intros H. split; [intros ->; exact (first_new H)|]. split; [intros ->; exact (second_new H)|]. destruct (lookup x (cl_blocks F)) eqn:Q; [|reflexivity].
  apply lookup_In_key, key_F in Q. tauto.
Qed.
Lemma absent_lookup {A} x (d : list (string * A)) : ~ In x (map fst d) -> lookup x d = None.
Proof. intros H. destruct (lookup x d) eqn:Q; [|reflexivity]. apply lookup_In_key in Q. tauto. Qed.
Lemma start_key : In start (map fst (cl_blocks F)). Proof. destruct (c_start F CF) as (s & Hs & J). fold F in Hs. rewrite ST in Hs. injection Hs as <-. exact J. Qed.
Lemma exit_key e : In e exits -> In e (map fst (cl_blocks F)).
Proof. intros H. destruct (in_returns _ _ _ _ _ _ _ I e H) as (be & pre & L & _). eapply lookup_In_key; eauto. Qed.
Lemma exit_dead e y : In e exits -> departures F e y = 0.
Proof. intros H. destruct (in_returns _ _ _ _ _ _ _ I e H) as (be & pre & L & _ & S & _). unfold departures. fold F in L. rewrite L, S. reflexivity. Qed.

Lemma lk_second : lookup (second_id id) (cl_blocks g') = Some (rename_block ρ (after_call id b pos f phis)).
Proof. rewrite LG, String.eqb_refl. reflexivity. Qed.
Lemma lk_first : lookup (first_id id) (cl_blocks g') = Some (rename_block ρ (before_call id b pos start)).
Proof. rewrite LG, String.eqb_refl. destruct (String.eqb_spec (first_id id) (second_id id)) as [Q|_]; [destruct (halves_ne id Q)|reflexivity]. Qed.
Lemma lk_body x bf : lookup x (cl_blocks F) = Some bf -> lookup x (cl_blocks g') = Some (final id call f ret start x bf).
Proof. intros L. assert (K := lookup_In_key _ _ _ L). apply key_F in K as (_ & N1 & N2 & N0). rewrite LG, L. apply String.eqb_neq in N0, N1, N2. rewrite N0, N1, N2. reflexivity. Qed.
Lemma lk_id : lookup id (cl_blocks g') = None.
Proof.
  rewrite LG, String.eqb_refl. destruct (String.eqb_spec id (second_id id)) as [Q|_]; [destruct (second_ne id (eq_sym Q))|]. destruct (String.eqb_spec id (first_id id)) as [Q|_]; [destruct (first_ne id (eq_sym Q))|reflexivity].
Qed.
Lemma lk_caller x : x <> id -> In x (map fst (cl_blocks g)) -> lookup x (cl_blocks g') = option_map (fun b0 => rename_block ρ (edit id b0)) (lookup x (cl_blocks g)).
Proof. intros N K. apply key_g in K as (N1 & N2 & L). rewrite LG, L. apply String.eqb_neq in N, N1, N2. rewrite N, N1, N2. reflexivity. Qed.
Lemma lk_none x : x <> second_id id -> x <> first_id id -> ~ In x (map fst (cl_blocks F)) -> ~ In x (map fst (cl_blocks g)) -> lookup x (cl_blocks g') = None.
Proof. intros N2 N1 NF NG. rewrite LG, (absent_lookup x _ NF), (absent_lookup x _ NG). apply String.eqb_neq in N1, N2. rewrite N1, N2. destruct (x =? id)%string; reflexivity. Qed.

Lemma final_succ x bf : successors (final id call f ret start x bf) = if mem x exits then opt_list (Some (second_id id)) ++ opt_list (cb_falls_to bf) else successors bf.
Proof. etransitivity; [|exact (linked_succ id call f start x bf)]. unfold final. destruct (mem x _); reflexivity. Qed.
Lemma final_from x bf : cb_comes_from (final id call f ret start x bf) = if String.eqb x start then cb_comes_from bf ++ [first_id id] else cb_comes_from bf.
Proof. etransitivity; [|exact (linked_from id call f start x bf)]. unfold final. destruct (mem x _); reflexivity. Qed.
Lemma final_entries x bf : cb_entries (final id call f ret start x bf) = cb_entries bf.
Proof. etransitivity; [|exact (linked_entries id call f start x bf)]. unfold final. destruct (mem x _); reflexivity. Qed.

Lemma body_departures x y : In x (map fst (cl_blocks F)) -> departures g' x y = departures F x y + if mem x exits && String.eqb y (second_id id) then 1 else 0.
Proof.
  intros K. apply key_lookup in K as (bf & L). unfold departures at 1. rewrite (lk_body x bf L), final_succ. destruct (mem x exits) eqn:M.
  - apply mem_In in M. rewrite exit_dead by exact M. destruct (in_returns _ _ _ _ _ _ _ I x M) as (be & pre & L' & _ & S & _). fold F in L'. rewrite L in L'. injection L' as <-.
    assert (Q : cb_falls_to bf = None). { unfold successors in S. apply app_eq_nil in S as (_ & S). destruct (cb_falls_to bf); [discriminate|reflexivity]. }
    rewrite Q. simpl. rewrite String.eqb_sym. lia.
  - unfold departures. rewrite L. simpl. lia.
Qed.
Lemma first_departures y : departures g' (first_id id) y = if String.eqb y start then 1 else 0.
Proof. unfold departures. rewrite lk_first. simpl. rewrite (String.eqb_sym start y). lia. Qed.
Lemma second_departures y : departures g' (second_id id) y = departures g id y.
Proof. unfold departures. rewrite lk_second, id_block. reflexivity. Qed.
Lemma caller_departures x y : x <> id -> In x (map fst (cl_blocks g)) -> departures g' x y = if String.eqb y (first_id id) then departures g x id else if String.eqb y id then 0 else departures g x y.
Proof.
  intros N K. unfold departures. rewrite (lk_caller x N K). destruct (key_lookup _ _ K) as (bx & L). rewrite L. simpl.
  change (successors (rename_block ρ (edit id bx))) with (successors (relink id (first_id id) bx)). rewrite successors_relink, count_subst by (intros Q; symmetry in Q; exact (first_ne id Q)).
  destruct (String.eqb_spec y (first_id id)) as [->|]; [|reflexivity].
  assert (Z : departures g x (first_id id) = 0) by (rewrite <- (c_links g CG); apply absent_arrivals, first_new). unfold departures in Z. rewrite L in Z. rewrite Z. lia.
Qed.
Lemma other_departures x y : x <> second_id id -> x <> first_id id -> ~ In x (map fst (cl_blocks F)) -> ~ (x <> id /\ In x (map fst (cl_blocks g))) -> departures g' x y = 0.
Proof. intros N2 N1 NF NG. unfold departures. destruct (string_dec x id) as [->|N]; [rewrite lk_id; reflexivity|]. rewrite lk_none; auto. Qed.

Lemma inside x : In x (map fst (cl_blocks g')) -> x = second_id id \/ x = first_id id \/ In x (map fst (cl_blocks F)) \/ x <> id /\ In x (map fst (cl_blocks g)).
Proof.
  intros K. apply key_lookup in K as (v & K). destruct (string_dec x (second_id id)); [auto|]. destruct (string_dec x (first_id id)); [auto|]. destruct (in_dec string_dec x (map fst (cl_blocks F))); [auto|].
  destruct (string_dec x id) as [->|N]; [rewrite lk_id in K; discriminate|]. destruct (in_dec string_dec x (map fst (cl_blocks g))) as [J|J]; [auto|]. rewrite lk_none in K by auto. discriminate.
Qed.
Lemma dep_id x : departures g id x > 0 -> x <> id /\ In x (map fst (cl_blocks g)).
Proof.
  intros H. split.
  - intros ->. unfold departures in H. rewrite id_block in H. apply count_In in H. destruct (sp_no_loop _ _ _ (in_split _ _ _ _ _ _ _ I) H).
  - apply (edge_target g id x CG). apply edge_departures. exact H.
Qed.

Lemma inline_links a c : arrivals g' a c = departures g' a c.
Proof.
  assert (H2 := second_new). assert (H1 := first_new).
  destruct (String.eqb_spec c (second_id id)) as [->|N2].
  { unfold arrivals. rewrite lk_second. change (cb_comes_from (rename_block ρ (after_call id b pos f phis))) with exits.
    destruct (in_dec string_dec a (map fst (cl_blocks F))) as [K|K].
    - rewrite body_departures by exact K. rewrite String.eqb_refl, andb_true_r.
      assert (Z : departures F a (second_id id) = 0). { rewrite <- (c_links F CF). apply absent_arrivals. intros Q. apply key_F in Q. tauto. } rewrite Z.
      destruct (mem a exits) eqn:M; [|apply mem_false in M; apply count_zero, M]. apply mem_In in M.
      assert (C1 := in_exits _ _ _ _ _ _ _ I). fold F in C1. fold exits in C1. clear -C1 M. induction exits as [|e es IH]; [destruct M|]. inversion C1; subst. rewrite count_cons. destruct (String.eqb_spec e a) as [->|]; [rewrite count_zero by auto; reflexivity|]. destruct M; [congruence|]. rewrite IH; auto.
    - rewrite count_zero by (intros M; apply exit_key in M; tauto). destruct (string_dec a (second_id id)) as [->|A2]; [rewrite second_departures|destruct (string_dec a (first_id id)) as [->|A1]; [rewrite first_departures|]].
      + rewrite <- (c_links g CG). symmetry. apply absent_arrivals, H2.
      + destruct (String.eqb_spec (second_id id) start) as [Q|]; [|reflexivity]. assert (SK := start_key). apply key_F in SK. symmetry in Q. tauto.
      + destruct (string_dec a id) as [->|A0]; [symmetry; apply other_departures; auto; tauto|]. destruct (in_dec string_dec a (map fst (cl_blocks g))) as [J|J]; [|symmetry; apply other_departures; auto; tauto].
        rewrite caller_departures by auto. destruct (String.eqb_spec (second_id id) (first_id id)) as [Q|_]; [destruct (halves_ne id (eq_sym Q))|]. destruct (String.eqb_spec (second_id id) id) as [Q|_]; [destruct (second_ne id Q)|].
        rewrite <- (c_links g CG). symmetry. apply absent_arrivals, H2. }
  destruct (String.eqb_spec c (first_id id)) as [->|N1].
  { unfold arrivals. rewrite lk_first. change (cb_comes_from (rename_block ρ (before_call id b pos start))) with (cb_comes_from b).
    assert (A : count a (cb_comes_from b) = departures g a id) by (rewrite <- (c_links g CG); unfold arrivals; rewrite id_block; reflexivity). rewrite A.
    assert (NG : forall x, ~ In x (map fst (cl_blocks g)) -> departures g x id = 0) by (intros; apply absent_departures; auto).
    destruct (in_dec string_dec a (map fst (cl_blocks F))) as [K|K].
    - rewrite body_departures by exact K. apply String.eqb_neq in N2. rewrite N2, andb_false_r. rewrite NG by (apply key_F in K; tauto).
      rewrite <- (c_links F CF). rewrite absent_arrivals by (intros Q; apply key_F in Q; tauto). reflexivity.
    - destruct (string_dec a (second_id id)) as [->|A2]; [rewrite second_departures, NG by auto|destruct (string_dec a (first_id id)) as [->|A1]; [rewrite first_departures, NG by auto|]].
      + rewrite <- (c_links g CG). symmetry. apply absent_arrivals, H1.
      + destruct (String.eqb_spec (first_id id) start) as [Q|]; [|reflexivity]. assert (SK := start_key). apply key_F in SK. symmetry in Q. tauto.
      + destruct (string_dec a id) as [->|A0].
        * rewrite other_departures by tauto. destruct (departures g id id) eqn:Q; [reflexivity|]. destruct (dep_id id) as (Z & _); [lia|tauto].
        * destruct (in_dec string_dec a (map fst (cl_blocks g))) as [J|J]; [|rewrite other_departures by tauto; apply NG, J].
          rewrite caller_departures by auto. rewrite String.eqb_refl. reflexivity. }
  destruct (in_dec string_dec c (map fst (cl_blocks F))) as [KC|KC].
  { destruct (key_lookup _ _ KC) as (bc & LC). unfold arrivals. rewrite (lk_body c bc LC), final_from. assert (NC := KC). apply key_F in NC as (NC & NC1 & NC2 & NC0).
    assert (A : count a (if (c =? start)%string then cb_comes_from bc ++ [first_id id] else cb_comes_from bc) = departures F a c + if String.eqb c start && String.eqb a (first_id id) then 1 else 0).
    { assert (Q : count a (cb_comes_from bc) = departures F a c) by (rewrite <- (c_links F CF); unfold arrivals; fold F; rewrite LC; reflexivity). rewrite <- Q.
      destruct (c =? start)%string; simpl; [|lia]. rewrite count_app. simpl. rewrite (String.eqb_sym (first_id id)). lia. }
    rewrite A. destruct (in_dec string_dec a (map fst (cl_blocks F))) as [K|K].
    - rewrite body_departures by exact K. apply String.eqb_neq in N2. rewrite N2, andb_false_r. destruct (String.eqb_spec a (first_id id)) as [->|]; [apply key_F in K; tauto|]. rewrite andb_false_r. reflexivity.
    - rewrite absent_departures by exact K. destruct (string_dec a (second_id id)) as [->|A2]; [|destruct (string_dec a (first_id id)) as [->|A1]].
      + rewrite second_departures. destruct (String.eqb_spec (second_id id) (first_id id)) as [Q|_]; [destruct (halves_ne id (eq_sym Q))|]. rewrite andb_false_r. rewrite <- (c_links g CG), absent_arrivals by exact NC. reflexivity.
      + rewrite first_departures, String.eqb_refl, andb_true_r. reflexivity.
      + apply String.eqb_neq in A1. rewrite A1, andb_false_r. apply String.eqb_neq in A1. destruct (in_dec string_dec a (map fst (cl_blocks g))) as [J|J]; [|rewrite other_departures by tauto; reflexivity].
        destruct (string_dec a id) as [->|A0]; [rewrite other_departures by tauto; reflexivity|]. rewrite caller_departures by auto. apply String.eqb_neq in NC1, NC0. rewrite NC1, NC0. rewrite <- (c_links g CG), absent_arrivals by exact NC. reflexivity. }
  destruct (in_dec string_dec c (map fst (cl_blocks g))) as [KG|KG]; [destruct (string_dec c id) as [->|NI]|].
  - unfold arrivals. rewrite lk_id. destruct (in_dec string_dec a (map fst (cl_blocks F))) as [K|K].
    + rewrite body_departures by exact K. apply String.eqb_neq in N2. rewrite N2, andb_false_r. rewrite <- (c_links F CF), absent_arrivals by exact KC. reflexivity.
    + destruct (string_dec a (second_id id)) as [->|A2]; [rewrite second_departures|destruct (string_dec a (first_id id)) as [->|A1]; [rewrite first_departures|]].
      * destruct (departures g id id) eqn:Q; [reflexivity|]. destruct (dep_id id) as (Z & _); [lia|tauto].
      * destruct (String.eqb_spec id start) as [Q|]; [|reflexivity]. assert (SK := start_key). apply key_F in SK. symmetry in Q. tauto.
      * destruct (in_dec string_dec a (map fst (cl_blocks g))) as [J|J]; [|rewrite other_departures by tauto; reflexivity]. destruct (string_dec a id) as [->|A0]; [rewrite other_departures by tauto; reflexivity|].
        rewrite caller_departures by auto. apply String.eqb_neq in N1. rewrite N1, String.eqb_refl. reflexivity.
  - destruct (key_lookup _ _ KG) as (bc & LC). unfold arrivals. rewrite (lk_caller c NI KG), LC. simpl option_map. cbn iota.
    change (cb_comes_from (rename_block ρ (edit id bc))) with (map (subst id (second_id id)) (cb_comes_from bc)). rewrite count_subst by (intros Q; symmetry in Q; exact (second_ne id Q)).
    assert (A : forall z, count z (cb_comes_from bc) = departures g z c) by (intros z; rewrite <- (c_links g CG); unfold arrivals; rewrite LC; reflexivity). rewrite !A.
    destruct (String.eqb_spec a (second_id id)) as [->|A2]; [rewrite second_departures, (absent_departures g (second_id id)) by exact H2; lia|].
    destruct (String.eqb_spec a id) as [->|A0]; [rewrite other_departures; auto; [intros Q; symmetry in Q; exact (first_ne id Q)|intros Q; apply key_F in Q; tauto|tauto]|].
    destruct (in_dec string_dec a (map fst (cl_blocks F))) as [K|K].
    + rewrite body_departures by exact K. apply String.eqb_neq in N2. rewrite N2, andb_false_r. rewrite (absent_departures g) by (apply key_F in K; tauto). rewrite <- (c_links F CF), absent_arrivals by exact KC. reflexivity.
    + destruct (string_dec a (first_id id)) as [->|A1].
      * rewrite first_departures, (absent_departures g) by exact H1. destruct (String.eqb_spec c start) as [->|]; [|reflexivity]. destruct (KC start_key).
      * destruct (in_dec string_dec a (map fst (cl_blocks g))) as [J|J]; [|rewrite other_departures by tauto; apply absent_departures, J].
        rewrite caller_departures by auto. apply String.eqb_neq in N1, NI. rewrite N1, NI. reflexivity.
  - unfold arrivals. rewrite lk_none by auto. destruct (in_dec string_dec a (map fst (cl_blocks F))) as [K|K].
    + rewrite body_departures by exact K. apply String.eqb_neq in N2. rewrite N2, andb_false_r. rewrite <- (c_links F CF), absent_arrivals by exact KC. reflexivity.
    + destruct (string_dec a (second_id id)) as [->|A2]; [rewrite second_departures|destruct (string_dec a (first_id id)) as [->|A1]; [rewrite first_departures|]].
      * rewrite <- (c_links g CG), absent_arrivals by exact KG. reflexivity.
      * destruct (String.eqb_spec c start) as [->|]; [|reflexivity]. destruct (KC start_key).
      * destruct (in_dec string_dec a (map fst (cl_blocks g))) as [J|J]; [|rewrite other_departures by tauto; reflexivity]. destruct (string_dec a id) as [->|A0]; [rewrite other_departures by tauto; reflexivity|].
        rewrite caller_departures by auto. apply String.eqb_neq in N1. rewrite N1. destruct (c =? id)%string; [reflexivity|]. rewrite <- (c_links g CG), absent_arrivals by exact KG. reflexivity.
Qed.

Lemma inline_consistent : consistent g'.
Proof.
  constructor; auto.
  - exact inline_links.
  - intros x blk L. destruct (inside x (lookup_In_key _ _ _ L)) as [->|[->|[K|[N K]]]].
    + rewrite lk_second in L. injection L as <-. simpl. fold F. fold exits. destruct exits as [|? [|? ?]]; intros z J; [exact J|destruct J|exact J].
    + rewrite lk_first in L. injection L as <-. exact (c_entries g CG id b id_block).
    + destruct (key_lookup _ _ K) as (bf & LF). rewrite (lk_body x bf LF) in L. injection L as <-. rewrite final_entries, final_from. intros z J. apply (c_entries F CF x bf LF) in J. destruct (x =? start)%string; [apply in_app_iff; auto|exact J].
    + destruct (key_lookup _ _ K) as (bx & LX). rewrite (lk_caller x N K), LX in L. injection L as <-. intros z J. simpl in J |- *. apply in_map_iff in J as (y & <- & J). apply in_map. exact (c_entries g CG x bx LX y J).
  - rewrite SG. destruct (c_start g CG) as (s & Hs & J). rewrite Hs. simpl. destruct (String.eqb_spec id s) as [_|N].
    + exists (first_id id). split; [reflexivity|]. eapply lookup_In_key, lk_first.
    + exists s. split; [reflexivity|]. destruct (key_lookup _ _ J) as (bs & L). eapply lookup_In_key. rewrite lk_caller by auto. rewrite L. reflexivity.
Qed.

(** ** Traces *)
Hypothesis RO : returns_at_exits F.
Lemma renamed_actions d (l : list linstr) : map Do (map (rename_instr d) l) = map (rename_event d) (map Do l).
Proof. rewrite !map_map. reflexivity. Qed.
Lemma act_second : actions g' (second_id id) = after b pos ρ phis.
Proof. unfold actions. rewrite lk_second. unfold after. rewrite <- renamed_actions. reflexivity. Qed.
Lemma act_first : actions g' (first_id id) = before b pos ρ.
Proof. unfold actions. rewrite lk_first. unfold before. rewrite <- renamed_actions. reflexivity. Qed.
Lemma act_caller x : x <> id -> In x (map fst (cl_blocks g)) -> actions g' x = map (rename_event ρ) (actions g x).
Proof. intros N K. unfold actions. rewrite (lk_caller x N K). destruct (lookup x (cl_blocks g)); [|reflexivity]. simpl. apply renamed_actions. Qed.
Lemma no_returns_app t u : no_returns (t ++ u) = no_returns t ++ no_returns u. Proof. apply filter_app. Qed.
Lemma no_returns_none l : filter is_functionReturn l = [] -> no_returns (map Do l) = map Do l.
Proof. induction l as [|i l IH]; [reflexivity|]. simpl. unfold is_functionReturn at 1. destruct (li_op i =? "functionReturn")%string; simpl; [discriminate|]. intros H. f_equal. apply IH, H. Qed.
Lemma act_body x : In x (map fst (cl_blocks F)) -> actions g' x = map (rename_event ρ) (map (rename_event σ) (no_returns (actions F x))).
Proof.
  intros K. destruct (key_lookup _ _ K) as (bf & L). unfold actions. rewrite (lk_body x bf L), L. assert (R := RO x bf L). fold exits in R.
  unfold final. fold F. fold exits. destruct (mem x exits) eqn:M.
  - apply mem_In in M. destruct (in_returns _ _ _ _ _ _ _ I x M) as (be & pre & L' & (i & EI & OP & _) & _). fold F in L'. rewrite L in L'. injection L' as <-.
    rewrite EI in R |- *. assert (RI : is_functionReturn i = true) by (unfold is_functionReturn; rewrite OP; reflexivity).
    rewrite filter_app, app_length in R. simpl in R. rewrite RI in R. simpl in R. assert (Z : filter is_functionReturn pre = []) by (destruct (filter is_functionReturn pre); [reflexivity|simpl in R; lia]).
    rewrite map_app, no_returns_app, (no_returns_none pre Z). unfold no_returns at 1. simpl. rewrite OP. simpl. rewrite app_nil_r.
    unfold drop_last. simpl cb_instrs. rewrite linked_return, EI, !map_app. simpl. rewrite removelast_snoc. rewrite !renamed_actions. reflexivity.
  - assert (Z : filter is_functionReturn (cb_instrs bf) = []) by (destruct (filter is_functionReturn (cb_instrs bf)); [reflexivity|simpl in R; lia]).
    rewrite no_returns_none by exact Z. simpl cb_instrs. rewrite linked_return, !renamed_actions. reflexivity.
Qed.
Lemma br_second y : branch g' (second_id id) y = map (rename_event ρ) (branch g id y).
Proof. unfold branch. rewrite lk_second, id_block. simpl. destruct (cb_cond b); reflexivity. Qed.
Lemma br_first y : branch g' (first_id id) y = [].
Proof. unfold branch. rewrite lk_first. reflexivity. Qed.
Lemma edge_ne_first x y : edge g x y -> y <> first_id id.
Proof. intros E ->. exact (first_new (edge_target g x _ CG E)). Qed.
Lemma jump_subst bx x y : lookup x (cl_blocks g) = Some bx -> edge g x y -> opt_eqb (option_map (subst id (first_id id)) (cb_jump_to bx)) (Some (subst id (first_id id) y)) = opt_eqb (cb_jump_to bx) (Some y).
Proof.
  intros L E. assert (NY := edge_ne_first x y E). destruct (cb_jump_to bx) as [j|] eqn:J; [|reflexivity]. simpl.
  assert (NJ : j <> first_id id). { apply (edge_ne_first x j). exists bx. auto. }
  unfold subst. destruct (String.eqb_spec j id) as [EJ|], (String.eqb_spec y id) as [EY|]; eqs; try reflexivity.
Qed.
Lemma br_caller x y : x <> id -> edge g x y -> branch g' x (subst id (first_id id) y) = map (rename_event ρ) (branch g x y).
Proof.
  intros N E. assert (K := edge_source _ _ _ E). destruct (key_lookup _ _ K) as (bx & L). unfold branch. rewrite (lk_caller x N K), L. simpl.
  rewrite (jump_subst bx x y L E). destruct (cb_cond bx); reflexivity.
Qed.
Lemma final_cond x bf : cb_cond (final id call f ret start x bf) = option_map (rename_var ρ) (option_map (rename_var σ) (cb_cond bf)).
Proof. unfold final, linked. destruct (no_return_succ (rename_block (formals_to_actuals call f) bf)) as (_ & _ & _ & _ & Q & _). destruct (mem x _), (x =? start)%string; simpl; rewrite Q; reflexivity. Qed.
Lemma br_body x y : In x (map fst (cl_blocks F)) -> ~ In x exits -> branch g' x y = map (rename_event ρ) (map (rename_event σ) (no_returns (branch F x y))).
Proof.
  intros K NE. destruct (key_lookup _ _ K) as (bf & L). unfold branch. rewrite (lk_body x bf L), L, final_cond. apply mem_false in NE.
  assert (Q : cb_jump_to (final id call f ret start x bf) = cb_jump_to bf).
  { unfold final, linked. fold F. fold exits. rewrite NE. destruct (no_return_succ (rename_block (formals_to_actuals call f) bf)) as (_ & _ & _ & _ & _ & Q & _). destruct (x =? start)%string; simpl; rewrite Q; reflexivity. }
  rewrite Q. destruct (cb_cond bf); reflexivity.
Qed.
Lemma br_exit x y : In x exits -> branch g' x y = [].
Proof.
  intros M. destruct (in_returns _ _ _ _ _ _ _ I x M) as (be & pre & L & _ & _ & C & _). unfold branch. rewrite (lk_body x be L), final_cond, C. reflexivity.
Qed.

(** ** Edges *)
Lemma edge_caller x y : x <> id -> edge g x y -> edge g' x (subst id (first_id id) y).
Proof.
  intros N E. assert (K := edge_source _ _ _ E). assert (NY := edge_ne_first x y E). apply edge_departures in E. apply edge_departures. rewrite caller_departures by auto. unfold subst.
  destruct (String.eqb_spec y id) as [EY|NI]; [rewrite String.eqb_refl; rewrite EY in E; exact E|]. apply String.eqb_neq in NY, NI. rewrite NY, NI. exact E.
Qed.
Lemma edge_caller_inv x z : x <> id -> In x (map fst (cl_blocks g)) -> edge g' x z -> exists y, edge g x y /\ z = subst id (first_id id) y.
Proof.
  intros N K E. apply edge_departures in E. rewrite caller_departures in E by auto. unfold subst. destruct (String.eqb_spec z (first_id id)) as [->|NZ].
  - exists id. split; [apply edge_departures, E|]. rewrite String.eqb_refl. reflexivity.
  - destruct (String.eqb_spec z id) as [->|NI]; [lia|]. exists z. split; [apply edge_departures, E|]. apply String.eqb_neq in NI. rewrite NI. reflexivity.
Qed.
Lemma edge_second y : edge g' (second_id id) y <-> edge g id y.
Proof. rewrite !edge_departures, second_departures. reflexivity. Qed.
Lemma edge_first y : edge g' (first_id id) y <-> y = start.
Proof. rewrite edge_departures, first_departures. destruct (String.eqb_spec y start); intuition; lia. Qed.
Lemma edge_body x y : edge F x y -> edge g' x y.
Proof. intros E. assert (K := edge_source _ _ _ E). apply edge_departures in E. apply edge_departures. rewrite body_departures by exact K. lia. Qed.
Lemma edge_exit e : In e exits -> edge g' e (second_id id).
Proof. intros M. apply edge_departures. rewrite body_departures by (apply exit_key, M). apply mem_In in M. rewrite M, String.eqb_refl. simpl. lia. Qed.
Lemma edge_body_inv x y : In x (map fst (cl_blocks F)) -> edge g' x y -> edge F x y \/ In x exits /\ y = second_id id.
Proof.
  intros K E. apply edge_departures in E. rewrite body_departures in E by exact K. destruct (mem x exits) eqn:M; simpl in E; [|left; apply edge_departures; lia].
  apply mem_In in M. rewrite (exit_dead x y M) in E. destruct (String.eqb_spec y (second_id id)); [auto|lia].
Qed.

Lemma walk_join h p e y q : walk h (p ++ [e]) -> edge h e y -> walk h (y :: q) -> walk h (p ++ e :: y :: q).
Proof.
  intros W E W2. induction p as [|a p IH]; [simpl; split; auto|]. destruct p as [|c p]; simpl app in *; [destruct W as (E1 & W1); split; [exact E1|split; auto]|].
  destruct W as (E1 & W1). split; [exact E1|apply IH, W1].
Qed.
Lemma trace_join h p e y q : trace h (p ++ e :: y :: q) = trace h (p ++ [e]) ++ branch h e y ++ trace h (y :: q).
Proof.
  induction p as [|a p IH]; [simpl; rewrite app_nil_r; reflexivity|]. destruct p as [|c p].
  - cbn [app trace] in *. rewrite IH. rewrite <- !app_assoc. reflexivity.
  - cbn [app] in *. change (trace h (a :: c :: p ++ e :: y :: q)) with (actions h a ++ branch h a c ++ trace h (c :: p ++ e :: y :: q)).
    change (trace h (a :: c :: p ++ [e])) with (actions h a ++ branch h a c ++ trace h (c :: p ++ [e])). rewrite IH, <- !app_assoc. reflexivity.
Qed.
Lemma walk_body w : walk F w -> walk g' w.
Proof.
  induction w as [|x w IH]; [auto|]. destruct w as [|y w]; [intros K; simpl in *; destruct (key_lookup _ _ K) as (bf & L); eapply lookup_In_key, (lk_body x bf L)|].
  intros (E & W). split; [apply edge_body, E|apply IH, W].
Qed.
Lemma trace_body w : walk F w -> trace g' w = body f σ ρ w.
Proof.
  unfold body. fold F. induction w as [|x w IH]; [reflexivity|]. destruct w as [|y w].
  - intros K. simpl. rewrite !app_nil_r. apply act_body, K.
  - intros (E & W). change (trace g' (x :: y :: w)) with (actions g' x ++ branch g' x y ++ trace g' (y :: w)). change (trace F (x :: y :: w)) with (actions F x ++ branch F x y ++ trace F (y :: w)).
    assert (K := edge_source _ _ _ E). rewrite (IH W), (act_body x K). rewrite br_body; [rewrite !no_returns_app, !map_app; reflexivity|exact K|].
    intros M. apply edge_departures in E. rewrite exit_dead in E by exact M. lia.
Qed.

Lemma inlined_head p q t : inlined g id b pos f σ ρ phis p q t -> exists x p' q', p = x :: p' /\ q = subst id (first_id id) x :: q' /\ In x (map fst (cl_blocks g)).
Proof.
  assert (KI := lookup_In_key _ _ _ id_block).
  intros H. destruct H; do 3 eexists; (split; [reflexivity|]); rewrite ?subst_ne by assumption; rewrite ?subst_old; (split; [reflexivity|]); auto. eapply edge_source; eauto.
Qed.
Lemma enters_cons w : enters f w -> exists w', w = start :: w'.
Proof. intros (_ & H). fold F in H. rewrite ST in H. destruct w as [|x w]; [discriminate|]. injection H as ->. eauto. Qed.

Lemma inlined_sound p q t : inlined g id b pos f σ ρ phis p q t -> walk g p /\ walk g' q /\ trace g' q = t.
Proof.
  assert (KI := lookup_In_key _ _ _ id_block). assert (KF := lookup_In_key _ _ _ lk_first). assert (KS := lookup_In_key _ _ _ lk_second).
  assert (FW : forall w, enters f w -> walk g' (first_id id :: w) /\ trace g' (first_id id :: w) = before b pos ρ ++ body f σ ρ w).
  { intros w H. assert (H' := H). destruct H' as (W & _). destruct (enters_cons w H) as (w' & ->). split.
    - split; [apply edge_first; reflexivity|apply walk_body, W].
    - change (trace g' (first_id id :: start :: w')) with (actions g' (first_id id) ++ branch g' (first_id id) start ++ trace g' (start :: w')). rewrite act_first, br_first, (trace_body _ W). reflexivity. }
  induction 1 as [x N K|x y p q t N E H (W & W' & T)| |w H|w e H M|w e y p q t H M E HI (W & W' & T)].
  - split; [exact K|]. split; [|simpl; rewrite app_nil_r; apply act_caller; auto]. destruct (key_lookup _ _ K) as (bx & L). simpl. eapply lookup_In_key. rewrite lk_caller by auto. rewrite L. reflexivity.
  - destruct (inlined_head _ _ _ H) as (y0 & p0 & q' & Q & -> & _). injection Q as <- <-. split; [split; auto|]. split; [split; [apply edge_caller; auto|exact W']|].
    change (trace g' (x :: subst id (first_id id) y :: q')) with (actions g' x ++ branch g' x (subst id (first_id id) y) ++ trace g' (subst id (first_id id) y :: q')).
    rewrite T, br_caller, act_caller by (auto; eapply edge_source; eauto). rewrite map_app, <- app_assoc. reflexivity.
  - split; [exact KI|]. split; [exact KF|]. simpl. rewrite app_nil_r. apply act_first.
  - split; [exact KI|]. apply FW, H.
  - destruct (FW _ H) as (WF & TF). split; [exact KI|]. change (first_id id :: w ++ e :: [second_id id]) with ((first_id id :: w) ++ e :: [second_id id]). change (first_id id :: w ++ [e]) with ((first_id id :: w) ++ [e]) in WF, TF. split.
    + apply walk_join; [exact WF|apply edge_exit, M|exact KS].
    + rewrite trace_join, TF, br_exit by exact M. simpl trace. rewrite app_nil_r, act_second, <- app_assoc. reflexivity.
  - destruct (FW _ H) as (WF & TF). split; [split; auto|]. change (first_id id :: w ++ e :: second_id id :: q) with ((first_id id :: w) ++ e :: second_id id :: q). change (first_id id :: w ++ [e]) with ((first_id id :: w) ++ [e]) in WF, TF.
    destruct (inlined_head _ _ _ HI) as (y0 & p0 & q' & Q & EQ & _). injection Q as <- <-. 
    assert (NY : y <> id) by (apply edge_departures in E; apply dep_id in E; tauto). rewrite subst_ne in EQ by exact NY. subst q. split.
    + apply walk_join; [exact WF|apply edge_exit, M|]. split; [apply edge_second, E|exact W'].
    + rewrite trace_join, TF, br_exit by exact M. change (trace g' (second_id id :: y :: q')) with (actions g' (second_id id) ++ branch g' (second_id id) y ++ trace g' (y :: q')).
      rewrite act_second, br_second, T, <- !app_assoc. reflexivity.
Qed.

(** A walk that is inside the function stays there or leaves by an exit. *)
Lemma body_split q : forall s, In s (map fst (cl_blocks F)) -> walk g' (s :: q) ->
  walk F (s :: q) \/ exists w e r, s :: q = w ++ e :: second_id id :: r /\ walk F (w ++ [e]) /\ In e exits /\ walk g' (second_id id :: r) /\ hd_error (w ++ [e]) = Some s.
Proof.
  induction q as [|y q IH]; intros s K W; [left; exact K|]. destruct W as (E & W). destruct (edge_body_inv s y K E) as [EF|(M & ->)].
  - destruct (IH y) as [WF|(w & e & r & Q & WF & M & WR & H)]; [apply (edge_target F s y CF EF)|exact W|left; split; auto|]. right. exists (s :: w), e, r. split; [simpl; rewrite Q; reflexivity|]. split; [|auto].
    destruct w as [|a w]; simpl in Q, H |- *; injection H as ->; auto.
  - right. exists [], s, q. split; [reflexivity|]. split; [exact K|]. auto.
Qed.

Lemma inlined_complete : forall n q z, length q <= n -> (z = first_id id \/ z <> id /\ In z (map fst (cl_blocks g))) -> walk g' (z :: q) ->
  exists p t, inlined g id b pos f σ ρ phis p (z :: q) t.
Proof.
  induction n as [n IH] using lt_wf_ind. intros q z LE [->|(N & K)] W.
  - destruct q as [|s q]; [do 2 eexists; apply inlined_enter|]. destruct W as (E & W). apply edge_first in E as ->.
    destruct (body_split q start start_key W) as [WF|(w & e & r & Q & WF & M & WR & H)].
    + do 2 eexists. apply inlined_inside. split; [exact WF|]. fold F. rewrite ST. reflexivity.
    + rewrite Q. assert (EN : enters f (w ++ [e])) by (split; [exact WF|]; fold F; congruence). destruct r as [|y r]; [do 2 eexists; apply inlined_return; auto|].
      destruct WR as (E & WR). apply (edge_second y) in E. assert (DY : y <> id /\ In y (map fst (cl_blocks g))) by (apply dep_id, edge_departures, E).
      assert (LR : length r < n). { apply (f_equal (@length _)) in Q. rewrite app_length in Q. simpl in Q, LE. lia. }
      destruct (IH (length r) LR r y) as (p & t & HI); [lia|auto|exact WR|].
      destruct (inlined_head _ _ _ HI) as (y0 & p0 & q' & -> & QQ & KY0). injection QQ as QY _.
      assert (y0 = y). { unfold subst in QY. destruct (String.eqb_spec y0 id) as [->|]; [|auto]. destruct (key_g y (proj2 DY)). congruence. } subst y0.
      do 2 eexists. apply inlined_call; eauto.
  - destruct q as [|s q]; [do 2 eexists; apply inlined_last; auto|]. destruct W as (E & W). destruct (edge_caller_inv z s N K E) as (y & EY & ->). simpl in LE.
    destruct (IH (length q)) with (q := q) (z := subst id (first_id id) y) as (p & t & HI); [lia|lia| |exact W|].
    + unfold subst. destruct (String.eqb_spec y id); [auto|right]. split; [auto|]. apply (edge_target g z y CG EY).
    + destruct (inlined_head _ _ _ HI) as (y0 & p0 & q' & -> & QQ & KY0). injection QQ as QY _.
      assert (y0 = y). { assert (NY := edge_ne_first z y EY). destruct (key_g y0 KY0) as (N0 & _). unfold subst in QY. destruct (String.eqb_spec y id) as [->|], (String.eqb_spec y0 id) as [->|]; congruence. } subst y0.
      do 2 eexists. apply inlined_step; eauto.
Qed.

(** If the function can return, every walk of the caller has a counterpart. *)
Lemma inlined_total w e : enters f (w ++ [e]) -> In e exits -> forall p, walk g p -> exists q t, inlined g id b pos f σ ρ phis p q t.
Proof.
  intros EN M. induction p as [|x p IH]; [intros []|]. destruct p as [|y p].
  - intros K. destruct (string_dec x id) as [->|N]; do 2 eexists; [apply inlined_return; eauto|apply inlined_last; auto].
  - intros (E & W). destruct (IH W) as (q & t & HI). destruct (string_dec x id) as [->|N]; do 2 eexists; [eapply inlined_call; eauto|eapply inlined_step; eauto].
Qed.
End Walks.

(** ** The theorem *)
Theorem inline_function_executions : forall g id b pos call f ret,
  inlinable g id b pos call f ret -> returns_at_exits (f_blocks f) ->
  let σ := formals_to_actuals call f in let ρ := results_to_returned call f ret in let exits := cl_return (f_blocks f) in
  exists g' phis second, inline_function pos id g f = Ok g' /\ consistent g'
  (* the results: with several exits, one phi function per result, which takes the value returned by the exit that was left *)
  /\ (if Nat.ltb 1 (length exits)
      then Forall2 (phi_for (map (fun e => rename_var_list σ (ret e)) exits)) (combine (seq 0 (length (li_outs call))) (li_outs call)) (rev phis)
      else phis = [])
  /\ lookup (second_id id) (cl_blocks g') = Some second /\ cb_comes_from second = exits /\ (1 < length exits -> cb_entries second = exits)
  (* the executions *)
  /\ (forall p q t, inlined g id b pos f σ ρ phis p q t -> walk g p /\ walk g' q /\ trace g' q = t)
  /\ (forall q, from_start g' q -> exists p t, inlined g id b pos f σ ρ phis p q t /\ from_start g p)
  /\ (forall p w e, from_start g p -> enters f (w ++ [e]) -> In e exits -> exists q t, inlined g id b pos f σ ρ phis p q t /\ from_start g' q).
Proof.
  intros g id b pos call f ret I RO σ ρ exits. destruct (c_start _ (in_callee _ _ _ _ _ _ _ I)) as (start & ST & _).
  destruct (inline_blocks g id b pos call f ret start I ST) as (g' & phis & E & ND & PH & L & S & T & R).
  exists g', phis, (rename_block ρ (after_call id b pos f phis)). split; [exact E|]. split; [eapply inline_consistent; eauto|]. split; [exact PH|].
  split; [eapply lk_second; eauto|]. split; [reflexivity|]. split; [intros H; simpl; fold exits; apply Nat.ltb_lt in H; rewrite H; reflexivity|].
  assert (IH : forall p q t, inlined g id b pos f σ ρ phis p q t -> exists x p' q', p = x :: p' /\ q = subst id (first_id id) x :: q' /\ In x (map fst (cl_blocks g))) by (intros; eapply inlined_head; eauto).
  assert (SO : forall p q t, inlined g id b pos f σ ρ phis p q t -> walk g p /\ walk g' q /\ trace g' q = t) by (intros p q t; eapply inlined_sound; eauto).
  assert (NF := sp_first _ _ _ (in_split _ _ _ _ _ _ _ I)). assert (KI := lookup_In_key _ _ _ (sp_lookup _ _ _ (in_split _ _ _ _ _ _ _ I))).
  split; [exact SO|]. destruct (c_start g (in_caller _ _ _ _ _ _ _ I)) as (s & Hs & Ks). split.
  - intros q (W & H). destruct q as [|z q]; [destruct W|]. rewrite S, Hs in H. simpl in H.
    destruct (inlined_complete g id b pos call f ret start g' phis I ST L (length q) q z) as (p & t & HI); [lia| |exact W|].
    + destruct (String.eqb_spec id s) as [->|N]; injection H as ->; [auto|]. right. auto.
    + exists p, t. split; [exact HI|]. destruct (SO _ _ _ HI) as (WP & _). split; [exact WP|]. destruct (IH _ _ _ HI) as (x & p' & q' & -> & Q & KX). injection Q as Q _. simpl. rewrite Hs. f_equal.
      unfold subst in Q. destruct (String.eqb_spec id s) as [E0|N], (String.eqb_spec x id) as [E1|N1]; injection H as H; congruence.
  - intros p w e (W & H) EN M. assert (TO : exists q t, inlined g id b pos f σ ρ phis p q t) by (eapply inlined_total; eauto). destruct TO as (q & t & HI). exists q, t. split; [exact HI|]. destruct (SO _ _ _ HI) as (_ & WQ & _). split; [exact WQ|].
    destruct (IH _ _ _ HI) as (x & p' & q' & -> & -> & KX). simpl in H |- *. rewrite S, <- H. simpl. unfold subst. rewrite (String.eqb_sym id x). destruct (x =? id)%string; reflexivity.
Qed.

(** The substitutions, by position: the formal arguments are listed from the
    last to the first with respect to the arguments of the call (whose first
    argument is the top of the stack), the results in the same order. *)
Lemma lookup_combine (ks : list string) : forall (vs : list string) i k v, NoDup ks -> nth_error ks i = Some k -> nth_error vs i = Some v -> lookup k (combine ks vs) = Some v.
Proof.
  induction ks as [|k0 ks IH]; intros [|v0 vs] [|i] k v N HK HV; simpl in *; try discriminate.
  - injection HK as ->. injection HV as ->. rewrite String.eqb_refl. reflexivity.
  - inversion N; subst. destruct (String.eqb_spec k0 k) as [->|]; [apply nth_error_In in HK; tauto|]. eapply IH; eauto.
Qed.
Theorem inline_binds_arguments : forall g id b pos call f ret i formal actual, inlinable g id b pos call f ret ->
  nth_error (rev (f_args f)) i = Some formal -> nth_error (li_ins call) i = Some actual -> startswith "0x" formal = false ->
  rename_var (formals_to_actuals call f) formal = actual.
Proof.
  intros g id b pos call f ret i formal actual [_ _ _ _ _ AR NF _ _ _ _ _ _] HF HA HX. unfold rename_var. rewrite HX.
  assert (LT : i < length (li_ins call)) by (apply nth_error_Some; congruence).
  assert (nth_error_rev : forall (l : list string) j x, nth_error (rev l) j = Some x -> nth_error l (length l - 1 - j) = Some x).
  { intros l j x H. assert (J : j < length (rev l)) by (apply nth_error_Some; congruence). rewrite rev_length in J.
    rewrite (nth_error_nth' _ "" (n := length l - 1 - j)) by lia. rewrite (nth_error_nth' _ "" (n := j)) in H by (rewrite rev_length; lia). rewrite rev_nth in H by exact J.
    injection H as <-. f_equal. f_equal. lia. }
  apply nth_error_rev in HF. rewrite <- (rev_involutive (li_ins call)) in HA. apply nth_error_rev in HA. rewrite rev_length in HA.
  unfold formals_to_actuals. erewrite lookup_combine; [reflexivity|exact NF|exact HF|]. rewrite AR. exact HA.
Qed.
Theorem inline_binds_result : forall g id b pos call f ret e i result returned, inlinable g id b pos call f ret -> cl_return (f_blocks f) = [e] ->
  nth_error (li_outs call) i = Some result -> nth_error (ret e) i = Some returned -> startswith "0x" result = false ->
  rename_var (results_to_returned call f ret) result = rename_var (formals_to_actuals call f) returned.
Proof.
  intros g id b pos call f ret e i result returned [_ _ _ _ _ _ _ _ _ _ _ NO _] EX HO HR HX. unfold rename_var at 1. rewrite HX. unfold results_to_returned. rewrite EX.
  erewrite lookup_combine; [reflexivity|exact NO|exact HO|]. unfold rename_var_list. apply map_nth_error, HR.
Qed.
Theorem inline_binds_results : forall g id b pos call f ret phis i result, inlinable g id b pos call f ret -> 
  Forall2 (phi_for (map (fun e => rename_var_list (formals_to_actuals call f) (ret e)) (cl_return (f_blocks f)))) (combine (seq 0 (length (li_outs call))) (li_outs call)) phis ->
  nth_error (li_outs call) i = Some result -> exists phi, nth_error phis i = Some phi /\ li_op phi = "PhiFunction" /\ li_outs phi = [result]
  /\ forall k e, nth_error (cl_return (f_blocks f)) k = Some e -> exists returned, nth_error (ret e) i = Some returned /\ nth_error (li_ins phi) k = Some (rename_var (formals_to_actuals call f) returned).
Proof.
  intros g id b pos call f ret phis i result _ FA HO.
  assert (F2 : forall {A B} (P : A -> B -> Prop) la lb, Forall2 P la lb -> forall n a, nth_error la n = Some a -> exists c, nth_error lb n = Some c /\ P a c).
  { intros A B P la lb H. induction H; intros [|n] a0 HN; simpl in *; try discriminate; [injection HN as <-; eauto|eauto]. }
  assert (HC : nth_error (combine (seq 0 (length (li_outs call))) (li_outs call)) i = Some (i, result)).
  { assert (G : forall l s n (x : string), nth_error l n = Some x -> nth_error (combine (seq s (length l)) l) n = Some (s + n, x)).
    { induction l as [|y l IH]; intros s [|n] x H; simpl in *; try discriminate; [injection H as ->; f_equal; f_equal; lia|]. rewrite (IH (S s) n x H). f_equal. f_equal. lia. }
    rewrite (G _ 0 i result HO). reflexivity. }
  destruct (F2 _ _ _ _ _ FA i _ HC) as (phi & HP & O & OU & VS). exists phi. split; [exact HP|]. split; [exact O|]. split; [exact OU|]. intros k e HE.
  destruct (F2 _ _ _ _ _ VS k (rename_var_list (formals_to_actuals call f) (ret e))) as (v & HV & HI); [apply map_nth_error with (f := fun e => rename_var_list (formals_to_actuals call f) (ret e)), HE|]. simpl in HI.
  unfold rename_var_list in HI. destruct (nth_error (ret e) i) as [r|] eqn:R.
  - exists r. split; [reflexivity|]. rewrite (map_nth_error _ _ _ R) in HI. congruence.
  - apply nth_error_None in R. assert (Z : nth_error (map (rename_var (formals_to_actuals call f)) (ret e)) i = None) by (apply nth_error_None; rewrite map_length; exact R). congruence.
Qed.
