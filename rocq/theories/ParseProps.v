(** Predecessors computed by the parser (C25). *)
From Verif Require Import Base UtilModel UtilProps UnifyProps LiveModel CfgModel CfgSpec CfgProps.
Open Scope string_scope. Open Scope list_scope.

(** An exit as the compiler writes it: two targets and a condition, one target,
    or no target but the block itself. *)
Definition exit_ok (j : jblock) : Prop :=
  if String.eqb (j_type j) "ConditionalJump" then exists f t c, j_targets j = [f; t] /\ j_cond j = Some c
  else if String.eqb (j_type j) "Jump" then exists t, j_targets j = [t]
  else forall t, In t (j_targets j) -> t = j_id j.
(** The successors a block has according to its exit. *)
Definition exit_succs (j : jblock) : list string :=
  if String.eqb (j_type j) "ConditionalJump" || String.eqb (j_type j) "Jump" then j_targets j else [].
Record input_ok (js : list jblock) : Prop := {
  in_some : js <> [];
  in_ids : NoDup (map j_id js);
  in_exits : forall j, In j js -> exit_ok j;
  in_targets : forall j t, In j js -> In t (j_targets j) -> In t (map j_id js)
}.

Definition sources (js : list jblock) (b : string) : list string := flat_map (fun j => repeat (j_id j) (count b (j_targets j))) js.
Definition row (d : list (string * list string)) (b : string) : list string := match lookup b d with Some l => l | None => [] end.

Lemma annotate_row d t id b : row (annotate d t id) b = row d b ++ if String.eqb t b then [id] else [].
Proof.
  unfold row, annotate. rewrite lookup_dict_set. destruct (String.eqb_spec t b) as [->|]; [reflexivity|]. rewrite app_nil_r. reflexivity.
Qed.
Lemma annotates_row id b : forall ts d, row (fold_left (fun d t => annotate d t id) ts d) b = row d b ++ repeat id (count b ts).
Proof.
  induction ts as [|t ts IH]; intros d; simpl; [rewrite app_nil_r; reflexivity|]. rewrite IH, annotate_row, <- app_assoc. f_equal.
  destruct (t =? b)%string; reflexivity.
Qed.
Lemma annotates_keys id : forall ts d x, In x (map fst (fold_left (fun d t => annotate d t id) ts d)) <-> In x (map fst d) \/ In x ts.
Proof.
  induction ts as [|t ts IH]; intros d x; simpl; [tauto|]. rewrite IH. unfold annotate. rewrite dict_set_keys. intuition congruence.
Qed.
Lemma annotates_NoDup id : forall ts d, NoDup (map fst d) -> NoDup (map fst (fold_left (fun d t => annotate d t id) ts d)).
Proof. induction ts as [|t ts IH]; intros d H; simpl; [exact H|]. apply IH. apply dict_set_NoDup; auto. Qed.

Lemma jump_info_ok bt j : exit_ok j -> exists b, set_jump_info j bt = Ok b
  /\ (forall x, count x (successors b) = count x (exit_succs j)) /\ cb_comes_from b = [] /\ cb_entries b = j_entries j.
Proof.
  unfold exit_ok, set_jump_info, exit_succs. destruct (String.eqb_spec (j_type j) "ConditionalJump").
  - intros (f & t & c & -> & ->). simpl. eexists. split; [reflexivity|]. split; [|split; reflexivity]. intros x. unfold successors. simpl. lia.
  - destruct (String.eqb_spec (j_type j) "Jump").
    + intros (t & ->). simpl. eexists. split; [reflexivity|]. split; [|split; reflexivity]. intros x. unfold successors. simpl. lia.
    + intros _. simpl. repeat match goal with |- context [String.eqb ?a ?b] => destruct (String.eqb a b) end;
        (eexists; split; [reflexivity|]; split; [intros x; reflexivity|split; reflexivity]).
Qed.

(** The blocks before the predecessors are known. *)
Definition parsed (bt : string) (js : list jblock) (g : clist) : Prop :=
  map fst (cl_blocks g) = map j_id js
  /\ (forall j, In j js -> exists b, set_jump_info j bt = Ok b /\ lookup (j_id j) (cl_blocks g) = Some b)
  /\ cl_start g = option_map j_id (hd_error js)
  /\ (forall x, In x (cl_terminal g) <-> has_type ["FunctionReturn"; "mainExit"; "terminal"] g x)
  /\ (forall x, In x (cl_return g) <-> has_type ["FunctionReturn"] g x).

Lemma has_type_add types g g' id b x : cl_blocks g' = dict_set id b (cl_blocks g) -> ~ In id (map fst (cl_blocks g)) ->
  has_type types g' x <-> has_type types g x \/ x = id /\ In (cb_type b) types.
Proof.
  intros E N. unfold has_type. rewrite E, lookup_dict_set. destruct (String.eqb_spec id x) as [->|Nx].
  - split; [intros (blk & [= <-] & I); auto|]. intros [(blk & L & _)|[_ I]]; [apply lookup_In_key in L; tauto|eauto].
  - split; [auto|]. intros [H|[? _]]; [exact H|congruence].
Qed.

Lemma dict_set_new {A} k (v : A) d : ~ In k (map fst d) -> dict_set k v d = d ++ [(k, v)].
Proof.
  induction d as [|[k' v'] d IH]; simpl; [reflexivity|]. intros H. destruct (String.eqb_spec k' k); [tauto|]. rewrite IH by tauto. reflexivity.
Qed.

Lemma parse_steps bt : forall js2 js1 g d, NoDup (map j_id (js1 ++ js2)) -> (forall j, In j js2 -> exit_ok j) ->
  parsed bt js1 g -> NoDup (map fst d) ->
  exists g' d', for_each (parse_step bt) js2 (g, d) = Ok (g', d') /\ parsed bt (js1 ++ js2) g' /\ NoDup (map fst d')
    /\ (forall b, row d' b = row d b ++ sources js2 b) /\ (forall x, In x (map fst d') <-> In x (map fst d) \/ exists j, In j js2 /\ In x (j_targets j)).
Proof.
  induction js2 as [|j js2 IH]; intros js1 g d ND EX P KD; simpl.
  - exists g, d. rewrite app_nil_r. split; [reflexivity|]. split; [exact P|]. split; [exact KD|]. split; [intros; rewrite app_nil_r; reflexivity|]. intros x. split; [auto|]. intros [H|(j & [] & _)]. exact H.
  - destruct P as (PK & PB & PS & PT & PR). destruct (jump_info_ok bt j (EX j (or_introl eq_refl))) as (b & EB & _).
    unfold parse_step at 1. rewrite EB. cbn [bind fst snd].
    assert (NJ : ~ In (j_id j) (map fst (cl_blocks g))).
    { rewrite PK. intros I. rewrite map_app in ND. simpl in ND. apply NoDup_remove_2 in ND. apply ND. apply in_app_iff; auto. }
    destruct (add_block_ok (j_id j) b false g) as (g1 & E1 & B1 & S1 & T1 & R1).
    { intros [H|H]; [|discriminate]. rewrite PS. destruct js1; [reflexivity|]. rewrite H in PK. discriminate. }
    rewrite E1. cbn [bind].
    destruct (IH (js1 ++ [j]) g1 (fold_left (fun d t => annotate d t (j_id j)) (j_targets j) d)) as (g' & d' & E' & P' & ND' & R' & K').
    + rewrite <- app_assoc. exact ND.
    + intros; apply EX; simpl; auto.
    + split; [|split; [|split; [|split]]].
      * rewrite B1, dict_set_new by auto. rewrite !map_app, PK. reflexivity.
      * intros j0 I. apply in_app_iff in I as [I|[<-|[]]].
        -- destruct (PB j0 I) as (b0 & H1 & H2). exists b0. split; [exact H1|]. rewrite B1, lookup_dict_set.
           destruct (String.eqb_spec (j_id j) (j_id j0)) as [Q|]; [|exact H2]. exfalso. apply NJ. rewrite Q. eapply lookup_In_key; eauto.
        -- exists b. split; [exact EB|]. rewrite B1, lookup_dict_set, String.eqb_refl. reflexivity.
      * rewrite S1, orb_false_r. destruct js1; simpl in *.
        -- destruct (cl_blocks g); [reflexivity|discriminate].
        -- destruct (cl_blocks g); [discriminate|]. exact PS.
      * intros x. rewrite T1, PT, (has_type_add _ _ _ _ _ x B1 NJ). reflexivity.
      * intros x. rewrite R1, PR, (has_type_add _ _ _ _ _ x B1 NJ). reflexivity.
    + apply annotates_NoDup; auto.
    + exists g', d'. split; [exact E'|]. split; [rewrite <- app_assoc in P'; exact P'|]. split; [exact ND'|]. split.
      * intros b0. rewrite R', annotates_row, <- app_assoc. reflexivity.
      * intros x. rewrite K', annotates_keys. split.
        -- intros [[H|H]|(j0 & H1 & H2)]; [auto|right; exists j; auto|right; exists j0; auto].
        -- intros [H|(j0 & [<-|H1] & H2)]; [auto|auto|right; exists j0; auto].
Qed.

(** The second pass. *)
Definition others (b : string) (l : list string) : list string := filter (fun p => negb (String.eqb b p)) l.
Lemma update_row k : forall l g b, lookup k (cl_blocks g) = Some b ->
  exists g', for_each (fun g p => if String.eqb k p then Ok g else do b <- get_block k g; Ok (put_block k (add_comes_from p b) g)) l g = Ok g'
    /\ same_shape g g'
    /\ forall x, lookup x (cl_blocks g') = if String.eqb k x then Some (set_comes_from (cb_comes_from b ++ others k l) b) else lookup x (cl_blocks g).
Proof.
  induction l as [|p l IH]; intros g b L; simpl.
  - exists g. split; [reflexivity|]. split; [apply same_shape_refl|]. intros x. destruct (String.eqb_spec k x) as [->|]; [|reflexivity].
    rewrite L, app_nil_r. destruct b; reflexivity.
  - destruct (String.eqb_spec k p) as [->|N]; simpl.
    + exact (IH g b L).
    + unfold get_block. rewrite L. simpl.
      destruct (IH (put_block k (add_comes_from p b) g) (add_comes_from p b)) as (g' & E & S & LL).
      * simpl. rewrite lookup_dict_set, String.eqb_refl. reflexivity.
      * exists g'. split; [exact E|]. split; [eapply same_shape_trans; [apply put_shape; eapply lookup_In_key; eauto|exact S]|].
        intros x. rewrite LL. simpl. rewrite lookup_dict_set. destruct (k =? x)%string; [|reflexivity]. rewrite <- app_assoc. reflexivity.
Qed.
Lemma update_rows : forall d g, NoDup (map fst d) -> (forall k, In k (map fst d) -> In k (map fst (cl_blocks g))) ->
  exists g', update_comes_from d g = Ok g' /\ same_shape g g'
    /\ forall x, lookup x (cl_blocks g') = option_map (fun b => set_comes_from (cb_comes_from b ++ others x (row d x)) b) (lookup x (cl_blocks g)).
Proof.
  unfold update_comes_from. induction d as [|[k l] d IH]; intros g ND K; simpl.
  - exists g. split; [reflexivity|]. split; [apply same_shape_refl|]. intros x. unfold row. simpl. destruct (lookup x (cl_blocks g)) as [b|]; [|reflexivity].
    simpl. rewrite app_nil_r. destruct b; reflexivity.
  - inversion ND as [|? ? N1 N2]; subst. destruct (key_lookup k (cl_blocks g)) as (b & L); [apply K; simpl; auto|].
    destruct (update_row k l g b L) as (g1 & E1 & S1 & L1). rewrite E1. cbn [bind].
    destruct (IH g1 N2) as (g' & E & S & LL).
    + intros x I. destruct S1 as (S1 & _). rewrite S1. apply K. simpl; auto.
    + exists g'. split; [exact E|]. split; [eapply same_shape_trans; eauto|]. intros x. rewrite LL, L1. unfold row. simpl.
      destruct (String.eqb_spec k x) as [->|Nx]; [|reflexivity]. rewrite L. simpl.
      destruct (lookup x d) eqn:Q; [apply lookup_In_key in Q; tauto|]. simpl. rewrite app_nil_r. reflexivity.
Qed.

Lemma count_repeat x y n : count x (repeat y n) = if String.eqb y x then n else 0.
Proof. induction n; simpl; [destruct (y =? x)%string; reflexivity|]. rewrite IHn. destruct (y =? x)%string; reflexivity. Qed.
Lemma count_sources js a b : NoDup (map j_id js) ->
  count a (sources js b) = match find (fun j => String.eqb (j_id j) a) js with Some j => count b (j_targets j) | None => 0 end.
Proof.
  induction js as [|j js IH]; simpl; [reflexivity|]. intros H. inversion H as [|? ? H1 H2]; subst. rewrite count_app, count_repeat, IH by auto.
  destruct (String.eqb_spec (j_id j) a) as [<-|]; [|reflexivity].
  destruct (find (fun j0 => (j_id j0 =? j_id j)%string) js) as [j0|] eqn:F; [|lia]. exfalso. apply find_some in F as [F1 F2]. apply String.eqb_eq in F2.
  apply H1. rewrite <- F2. apply in_map; auto.
Qed.
Lemma count_others a b l : a <> b -> count a (others b l) = count a l.
Proof.
  intros N. unfold others. induction l as [|x l IH]; simpl; [reflexivity|]. destruct (String.eqb_spec b x) as [->|]; simpl; rewrite IH; [|reflexivity].
  destruct (String.eqb_spec x a); [congruence|reflexivity].
Qed.
Lemma count_others_self b l : count b (others b l) = 0.
Proof. apply count_zero. unfold others. rewrite filter_In. intros [_ H]. rewrite String.eqb_refl in H. discriminate. Qed.

(** C25, for two different blocks: [a] is listed [n] times as a predecessor of
    [b] exactly when [b] is listed [n] times as a successor of [a], and the
    successors are those of the exit.  A block is never listed as its own
    predecessor. *)
Theorem parsed_predecessors_partial : forall bt js, input_ok js ->
  exists g, parse_block_list bt js = Ok g
  /\ map fst (cl_blocks g) = map j_id js /\ cl_start g = option_map j_id (hd_error js)
  /\ (forall j x, In j js -> departures g (j_id j) x = count x (exit_succs j))
  /\ (forall a b, a <> b -> arrivals g a b = departures g a b)
  /\ (forall a, arrivals g a a = 0)
  /\ ((forall a, departures g a a = 0) -> (forall j e, In j js -> In e (j_entries j) -> e <> j_id j /\ 0 < departures g e (j_id j)) -> consistent g).
Proof.
  intros bt js [NE ID EX TG]. unfold parse_block_list.
  destruct (parse_steps bt js [] empty_list [] ID EX) as (g1 & d & E1 & P & KD & RD & KK).
  { split; [reflexivity|]. split; [intros j []|]. split; [reflexivity|]. split; intros x; simpl; (split; [tauto|]); intros (blk & H & _); discriminate. }
  { constructor. }
  rewrite E1. cbn [bind fst snd app] in *. destruct P as (PK & PB & PS & PT & PR).
  destruct (update_rows d g1 KD) as (g & E & (SK & SS & STm & SR) & LG).
  { intros k I. apply KK in I as [[]|(j & I1 & I2)]. rewrite PK. eapply TG; eauto. }
  assert (DEP : forall j x, In j js -> departures g (j_id j) x = count x (exit_succs j)).
  { intros j x I. unfold departures. destruct (PB j I) as (b & H1 & H2). rewrite LG, H2. simpl.
    destruct (jump_info_ok bt j (EX j I)) as (b' & H3 & H4 & _). rewrite H1 in H3. injection H3 as <-. exact (H4 x). }
  assert (ARR : forall a b, In b (map j_id js) -> arrivals g a b = count a (others b (sources js b))).
  { intros a b I. apply in_map_iff in I as (j & <- & I). unfold arrivals. destruct (PB j I) as (b' & H1 & H2). rewrite LG, H2. simpl.
    destruct (jump_info_ok bt j (EX j I)) as (b'' & H3 & _ & H4 & _). rewrite H1 in H3. injection H3 as <-. rewrite H4. simpl. rewrite RD. reflexivity. }
  assert (LINK : forall a b, a <> b -> arrivals g a b = departures g a b).
  { intros a b N. destruct (in_dec string_dec b (map j_id js)) as [Ib|Ib].
    - rewrite (ARR a b Ib), count_others, count_sources by auto.
      destruct (find (fun j => (j_id j =? a)%string) js) as [j|] eqn:F.
      + apply find_some in F as [F1 F2]. apply String.eqb_eq in F2. subst a. rewrite DEP by auto. unfold exit_succs.
        destruct ((j_type j =? "ConditionalJump")%string || (j_type j =? "Jump")%string) eqn:T; [reflexivity|].
        apply orb_false_iff in T as [T1 T2]. assert (X := EX j F1). unfold exit_ok in X. rewrite T1, T2 in X.
        apply count_zero. intros I. apply X in I. congruence.
      + symmetry. apply absent_departures. rewrite SK, PK. intros I. apply in_map_iff in I as (j & <- & I).
        apply (find_none _ _ F) in I. rewrite String.eqb_refl in I. discriminate.
    - rewrite absent_arrivals by (rewrite SK, PK; auto). destruct (in_dec string_dec a (map j_id js)) as [Ia|Ia].
      + apply in_map_iff in Ia as (j & <- & Ia). rewrite DEP by auto. symmetry. apply count_zero. intros I. apply Ib.
        apply (TG j b Ia). unfold exit_succs in I. destruct (_ || _); [exact I|destruct I].
      + symmetry. apply absent_departures. rewrite SK, PK. exact Ia. }
  assert (SELF : forall a, arrivals g a a = 0).
  { intros a. destruct (in_dec string_dec a (map j_id js)) as [Ia|Ia].
    - rewrite ARR by auto. apply count_others_self.
    - apply absent_arrivals. rewrite SK, PK. exact Ia. }
  exists g. split; [exact E|]. split; [congruence|]. split; [rewrite SS; exact PS|]. split; [exact DEP|]. split; [exact LINK|]. split; [exact SELF|].
  intros NS EN.
  assert (TY : forall types x, has_type types g x <-> has_type types g1 x).
  { intros types x. unfold has_type. rewrite LG. destruct (lookup x (cl_blocks g1)) as [b|]; simpl; split; intros (blk & [= <-] & I); eexists; split; eauto. }
  constructor.
  - rewrite SK, PK. exact ID.
  - intros a b. destruct (String.eqb_spec a b) as [->|N]; [|auto]. rewrite SELF, NS. reflexivity.
  - intros x blk L e I. assert (KX : In x (map j_id js)) by (rewrite <- PK, <- SK; eapply lookup_In_key; eauto).
    apply in_map_iff in KX as (j & <- & J). destruct (PB j J) as (b' & H1 & H2). rewrite LG, H2 in L. injection L as <-.
    destruct (jump_info_ok bt j (EX j J)) as (b'' & H3 & _ & _ & H4). rewrite H1 in H3. injection H3 as <-. simpl in I. rewrite H4 in I.
    destruct (EN j e J I) as [Ne De]. rewrite <- LINK in De by auto. unfold arrivals in De. rewrite LG, H2 in De. apply count_In. exact De.
  - destruct js as [|j js]; [congruence|]. exists (j_id j). split; [rewrite SS, PS; reflexivity|]. rewrite SK, PK. simpl; auto.
  - intros x. rewrite STm, TY. apply PT.
  - intros x. rewrite SR, TY. apply PR.
Qed.

Definition loop_input : list jblock :=
  [ {| j_id := "a"; j_type := "Jump"; j_targets := ["b"]; j_cond := None; j_returns := []; j_entries := []; j_instrs := [] |};
    {| j_id := "b"; j_type := "ConditionalJump"; j_targets := ["c"; "d"]; j_cond := Some "v0"; j_returns := []; j_entries := ["a"; "d"]; j_instrs := [] |};
    {| j_id := "c"; j_type := "Terminated"; j_targets := ["c"]; j_cond := None; j_returns := []; j_entries := []; j_instrs := [] |};
    {| j_id := "d"; j_type := "Jump"; j_targets := ["b"]; j_cond := None; j_returns := []; j_entries := []; j_instrs := [] |} ].
Example loop_input_ok : input_ok loop_input.
Proof.
  constructor; [discriminate| | |].
  - simpl. repeat constructor; simpl; intuition discriminate.
  - intros j H. simpl in H. repeat destruct H as [<-|H]; try contradiction; unfold exit_ok; simpl; eauto. intuition.
  - intros j t H I. simpl in H. repeat destruct H as [<-|H]; try contradiction; simpl in *; intuition.
Qed.
Example loop_input_preds : exists g, parse_block_list "" loop_input = Ok g /\ arrivals g "d" "b" = 1 /\ arrivals g "a" "b" = 1 /\ arrivals g "b" "d" = 1 /\ arrivals g "c" "c" = 0.
Proof. eexists. split; [vm_compute; reflexivity|]. repeat split. Qed.

(** A block that jumps to itself is not among its own predecessors. *)
Theorem parsed_self_loop_refuted : exists js g a, input_ok js /\ parse_block_list "" js = Ok g /\ edge g a a /\ arrivals g a a = 0.
Proof.
  exists [ {| j_id := "a"; j_type := "Jump"; j_targets := ["b"]; j_cond := None; j_returns := []; j_entries := []; j_instrs := [] |};
           {| j_id := "b"; j_type := "ConditionalJump"; j_targets := ["c"; "b"]; j_cond := Some "v0"; j_returns := []; j_entries := []; j_instrs := [] |};
           {| j_id := "c"; j_type := "Terminated"; j_targets := []; j_cond := None; j_returns := []; j_entries := []; j_instrs := [] |} ].
  eexists _, "b". split; [|split; [vm_compute; reflexivity|split; [|reflexivity]]].
  - constructor; [discriminate| | |].
    + simpl. repeat constructor; simpl; intuition discriminate.
    + intros j H. simpl in H. repeat destruct H as [<-|H]; try contradiction; unfold exit_ok; simpl; eauto. intuition.
    + intros j t H I. simpl in H. repeat destruct H as [<-|H]; try contradiction; simpl in *; intuition.
  - apply edge_departures. vm_compute. lia.
Qed.

(** What a block does at its exit according to the input: with a condition, the
    first target if it is zero and the second otherwise. *)
Inductive exit_meaning := Goes (t : string) | Branches (c if_zero if_not : string) | Returns (vs : list string) | Stops | MainEnds | Continues.
Definition exit_of (j : jblock) : option exit_meaning :=
  if String.eqb (j_type j) "ConditionalJump" then
    match j_targets j, j_cond j with [f; t], Some c => Some (Branches c f t) | _, _ => None end
  else if String.eqb (j_type j) "Jump" then match j_targets j with [t] => Some (Goes t) | _ => None end
  else if String.eqb (j_type j) "Terminated" then Some Stops
  else if String.eqb (j_type j) "MainExit" then Some MainEnds
  else if String.eqb (j_type j) "FunctionReturn" then Some (Returns (j_returns j))
  else if String.eqb (j_type j) "" then Some Continues else None.
(** The same, of a block of the graph: a conditional block jumps if the
    condition is not zero and falls through otherwise. *)
Definition block_does (b : cblock) (instrs : list linstr) (m : exit_meaning) : Prop :=
  match m with
  | Goes t => cb_type b = "unconditional" /\ cb_jump_to b = Some t /\ cb_falls_to b = None /\ cb_instrs b = instrs
  | Branches c z n => cb_type b = "conditional" /\ cb_cond b = Some c /\ cb_falls_to b = Some z /\ cb_jump_to b = Some n /\ cb_instrs b = instrs
  | Returns vs => cb_type b = "FunctionReturn" /\ cb_jump_to b = None /\ cb_falls_to b = None
      /\ exists i, cb_instrs b = instrs ++ [i] /\ cb_split b = Some i /\ li_op i = "functionReturn" /\ li_ins i = vs /\ li_outs i = []
  | Stops => cb_type b = "terminal" /\ cb_jump_to b = None /\ cb_falls_to b = None /\ cb_instrs b = instrs
  | MainEnds => cb_type b = "mainExit" /\ cb_jump_to b = None /\ cb_falls_to b = None /\ cb_instrs b = instrs
  | Continues => cb_type b = "falls_to" /\ cb_jump_to b = None /\ cb_falls_to b = None /\ cb_instrs b = instrs
  end.
(** Every block keeps its instructions, the order of the entries of its phi
    functions, and what its exit does. *)
Theorem parsed_exits : forall bt js, input_ok js -> exists g, parse_block_list bt js = Ok g /\
  forall j, In j js -> exists b, lookup (j_id j) (cl_blocks g) = Some b /\ cb_entries b = j_entries j
    /\ forall m, exit_of j = Some m -> block_does b (j_instrs j) m.
Proof.
  intros bt js [NE ID EX TG]. unfold parse_block_list.
  destruct (parse_steps bt js [] empty_list [] ID EX) as (g1 & d & E1 & P & KD & RD & KK).
  { split; [reflexivity|]. split; [intros j []|]. split; [reflexivity|]. split; intros x; simpl; (split; [tauto|]); intros (blk & H & _); discriminate. }
  { constructor. }
  rewrite E1. cbn [bind fst snd app] in *. destruct P as (PK & PB & PS & PT & PR).
  destruct (update_rows d g1 KD) as (g & E & _ & LG).
  { intros k I. apply KK in I as [[]|(j & I1 & I2)]. rewrite PK. eapply TG; eauto. }
  exists g. split; [exact E|]. intros j I. destruct (PB j I) as (b & H1 & H2). rewrite LG, H2. cbn [option_map]. eexists. split; [reflexivity|].
  destruct (jump_info_ok bt j (EX j I)) as (b' & H3 & _ & _ & H4). rewrite H1 in H3. injection H3 as <-.
  split; [exact H4|]. intros m. revert H1. unfold set_jump_info, exit_of.
  repeat match goal with |- context [String.eqb (j_type j) ?t] => destruct (String.eqb_spec (j_type j) t) end; try congruence.
  - destruct (j_targets j) as [|f [|t [|]]], (j_cond j); try discriminate. cbn [nth_error of_option bind]. intros [= <-] [= <-]. cbn. auto.
  - destruct (j_targets j) as [|t [|]]; try discriminate. cbn [nth_error of_option bind]. intros [= <-] [= <-]. cbn. auto.
  - intros [= <-] [= <-]. cbn. auto.
  - intros [= <-] [= <-]. cbn. auto.
  - intros [= <-] [= <-]. cbn. auto.
  - intros [= <-] [= <-]. cbn. do 3 (split; [reflexivity|]). eexists. repeat split.
Qed.
Example parsed_exits_hyps : map exit_of loop_input = [Some (Goes "b"); Some (Branches "v0" "c" "d"); Some Stops; Some (Goes "b")].
Proof. reflexivity. Qed.

Print Assumptions parsed_predecessors_partial.
Print Assumptions parsed_self_loop_refuted.
Print Assumptions parsed_exits.
