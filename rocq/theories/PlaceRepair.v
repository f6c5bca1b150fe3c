(** The whole repair: reachability, phi functions solved through registers, stores. *)
From Coq Require Import Permutation.
From Verif Require LevelProps.
From Verif Require Import Base Lexical LexicalProofs SymExecModel AsmModel DepsModel SpecModel UtilModel WebModel UnifyProps RegModel RegSpec RegProps
  PlaceModel PlaceSpec PlaceBlock PlaceTree PlaceCover.
Open Scope string_scope. Open Scope list_scope.

(* --- the loads counted at the start --- *)
Definition count_step (st : counter * nat * list string) (id : string) : counter * nat * list string :=
  let '(c, n, accessed) := st in
  if startswith "VGET" id then
    match extract_value id with
    | Some v => if mem v accessed then (c, n + 1, accessed) else (cinc c v, n, accessed)
    | None => st
    end
  else if startswith "VSET" id then
    match extract_value id with Some v => (c, n, v :: accessed) | None => st end
  else st.
Lemma initial_get_count_eq ids : initial_get_count ids = let '(c, n, _) := fold_left count_step ids ([], 0, []) in (c, n).
Proof. reflexivity. Qed.
Lemma keys_inc c v x : In x (map fst (cinc c v)) <-> x = v \/ In x (map fst c).
Proof. apply keys_set. Qed.
Lemma vget_not_vset x : startswith "VSET" (vget_id x) = false.
Proof. reflexivity. Qed.
Lemma contains_prefix p s : startswith p s = true -> contains p s = true.
Proof. unfold startswith. intros H. destruct s; cbn [contains]; rewrite H; reflexivity. Qed.
Lemma count_covers ids li : ids_access ids li -> forall c n acc c' n' acc', fold_left count_step ids (c, n, acc) = (c', n', acc') ->
  (forall x, In x (map fst c) -> In x (map fst c')) /\
  (forall st, (forall x, In x acc -> In x st) -> (forall x, In x (map fst c') -> In x st) -> defined_before st li) /\
  (cwf c -> cwf c') /\ (forall x, In x (map fst c') -> In x (map fst c) \/ In (Load x) li).
Proof.
  induction 1 as [|y ids l H IH|y ids l H IH|y p ids l C1 C2 H IH|id ids l P C H IH]; intros c n acc c' n' acc' F; cbn [fold_left] in F.
  - injection F as <- <- <-. split; [auto|]. split; [intros; exact I|]. auto.
  - cbn [count_step] in F. change (startswith "VGET" (vget_id y)) with true in F. cbv iota in F. rewrite extract_vget in F.
    destruct (mem y acc) eqn:M.
    + apply IH in F as (F1 & F2 & F3 & F4). split; [exact F1|]. split; [|split; [exact F3|intros x Q; destruct (F4 x Q); [auto|right; right; assumption]]].
      intros st A B. cbn. split; [apply A, mem_In, M|auto].
    + apply IH in F as (F1 & F2 & F3 & F4). split; [intros x Q; apply F1, keys_inc; auto|]. split; [|split].
      * intros st A B. cbn. split; [apply B, F1, keys_inc; auto|auto].
      * intros W. apply F3, cwf_inc, W.
      * intros x Q. destruct (F4 x Q) as [Q'|Q']; [apply keys_inc in Q' as [->|Q']; [right; left; reflexivity|auto]|right; right; exact Q'].
  - cbn [count_step] in F. change (startswith "VGET" (vset_id y)) with false in F. change (startswith "VSET" (vset_id y)) with true in F. cbv iota in F. rewrite extract_vset in F.
    apply IH in F as (F1 & F2 & F3 & F4). split; [exact F1|]. split; [|split; [exact F3|intros x Q; destruct (F4 x Q); [auto|right; right; assumption]]].
    intros st A B. cbn. apply F2; [intros x [->|Q]; [left; reflexivity|right; auto]|intros x Q; right; auto].
  - cbn [count_step] in F. change (startswith "VGET" (dup_vset_id y p)) with false in F. change (startswith "VSET" (dup_vset_id y p)) with false in F. cbv iota in F.
    apply IH in F as (F1 & F2 & F3 & F4). split; [exact F1|]. split; [|split; [exact F3|intros x Q; destruct (F4 x Q); [auto|right; right; assumption]]].
    intros st A B. cbn. apply F2; intros x Q; right; auto.
  - cbn [count_step] in F. change (prefix "VGET" id) with (startswith "VGET" id) in P. rewrite P in F.
    destruct (startswith "VSET" id) eqn:V; [apply contains_prefix in V; congruence|]. apply IH in F. exact F.
Qed.
Lemma initial_cwf ids : cwf (fst (initial_get_count ids)).
Proof.
  rewrite initial_get_count_eq. assert (G : forall c n acc, cwf c -> cwf (fst (fst (fold_left count_step ids (c, n, acc))))).
  { induction ids as [|id ids IH]; intros c n acc W; cbn [fold_left]; [exact W|]. unfold count_step at 2.
    destruct (startswith "VGET" id); [destruct (extract_value id); [destruct (mem s acc)|]|destruct (startswith "VSET" id); [destruct (extract_value id)|]];
      apply IH; auto using cwf_inc. }
  assert (Q : forall X : counter * nat * list string, cwf (fst (fst X)) -> cwf (fst (let '(c, n, _) := X in (c, n)))) by (intros [[c n] acc]; exact (fun H => H)).
  apply Q, G, cwf_nil.
Qed.

(* --- reachability --- *)
Lemma reachability_first depth ids src ui call d : reachability_from_greedy depth ids src ui call = Ok d -> reach_first ids d.
Proof.
  unfold reachability_from_greedy. intros H. apply bind_ok in H as ([[st d'] forb] & H & E).
  apply (reach_ids_ok depth ui ids src _ ids []) in H; auto.
  - destruct H as (H1 & _ & H3). destruct call as [[m outs]|]; injection E as <-; intros x p k l Q.
    + apply update_reachable_in in Q as [(i & Q & N & Li & NF)|Q]; [|apply (H1 _ _ _ _ Q)].
      injection Q as -> -> ->. intros I. apply NF, H3. apply in_firstn in I as (j & _ & J). apply nth_error_In in J. exact J.
    + apply (H1 _ _ _ _ Q).
  - constructor.
  - intros x p k l Q. apply update_reachable_in in Q as [(i & Q & N & Li & NF)|Q]; [|discriminate].
    injection Q as -> -> ->. split; [lia|]. split; [exact Li|]. split; [exists src; split; [constructor|exact N]|]. intros [].
Qed.

(** What the pass keeps of a block, and what it maintains. *)
Definition kept (b b' : pblock) : Prop :=
  pb_name b' = pb_name b /\ pb_phis b' = pb_phis b /\ pb_entries b' = pb_entries b /\ pb_succs b' = pb_succs b /\ pb_src b' = pb_src b /\
  pb_instrs b' = pb_instrs b /\ pb_call b' = pb_call b /\ pb_declared b' = pb_declared b /\ pb_ids b' = pb_ids b /\ pb_reach b' = pb_reach b /\ pb_unreach b' = pb_unreach b.
Definition flag (b : pblock) (v : string) : bool := match lookup v (pb_reach b) with Some (_, _, l) => l | None => false end.
Definition good (b : pblock) : Prop :=
  reach_first (pb_ids b) (pb_reach b) /\ cwf (pb_count b) /\
  (forall v, In v (map fst (fst (initial_get_count (pb_ids b)))) -> In v (map fst (pb_count b))) /\
  (forall v, In v (map fst (pb_count b)) -> In v (map fst (fst (initial_get_count (pb_ids b)))) \/ In v (deep_copies b)) /\
  (forall v f, In (v, f) (pb_copies b) -> f = flag b v /\ (f = false -> In v (map fst (pb_count b)))) /\ NoDup (map fst (pb_copies b)).
Lemma kept_refl b : kept b b. Proof. unfold kept. intuition. Qed.
Lemma kept_trans a b c : kept a b -> kept b c -> kept a c.
Proof. unfold kept. intuition congruence. Qed.
Lemma good_solve b s : good b -> good (with_solve b s).
Proof. exact (fun H => H). Qed.
Lemma In_dict_set {A} k (v : A) d : In (k, v) (dict_set k v d).
Proof. induction d as [|[k' v'] d IH]; cbn; [auto|]. destruct (String.eqb_spec k' k) as [->|]; [left; reflexivity|right; exact IH]. Qed.
Lemma In_dict_other {A} k (v : A) d x y : x <> k -> In (x, y) d -> In (x, y) (dict_set k v d).
Proof.
  intros N. induction d as [|[k' v'] d IH]; cbn; [tauto|]. intros [E|I].
  - injection E as -> ->. destruct (String.eqb_spec x k); [contradiction|left; reflexivity].
  - destruct (String.eqb_spec k' k); right; auto.
Qed.
Lemma good_copy b v : good b -> good (add_virtual_copy v b) /\ kept b (add_virtual_copy v b).
Proof.
  intros (G1 & G2 & G3 & G4 & G5 & G6). split; [|unfold kept, add_virtual_copy; cbn; repeat split].
  assert (F : flag (add_virtual_copy v b) = flag b) by reflexivity.
  unfold good. rewrite F. cbn [add_virtual_copy with_copies pb_ids pb_reach pb_count pb_copies].
  change (match lookup v (pb_reach b) with Some (_, _, l) => l | None => false end) with (flag b v).
  split; [exact G1|]. split; [destruct (flag b v); [exact G2|apply cwf_inc, G2]|].
  assert (M : forall x, In x (map fst (pb_count b)) -> In x (map fst (if flag b v then pb_count b else cinc (pb_count b) v)))
    by (intros x Q; destruct (flag b v); [exact Q|apply keys_inc; auto]).
  split; [intros x Q; apply M, G3, Q|]. split; [|split; [|apply keys_nodup; exact G6]].
  - intros x Q. unfold deep_copies. cbn [add_virtual_copy with_copies pb_copies].
    change (match lookup v (pb_reach b) with Some (_, _, l) => l | None => false end) with (flag b v).
    destruct (String.eqb_spec x v) as [->|N].
    + destruct (flag b v) eqn:E.
      * destruct (G4 v Q) as [Q'|Q']; [auto|]. exfalso. apply in_map_iff in Q' as ([y f] & Ey & Q'). cbn in Ey. subst y. apply filter_In in Q' as [Q' Q2].
        destruct (G5 v f Q') as [-> _]. rewrite E in Q2. discriminate.
      * right. apply in_map_iff. exists (v, false). split; [reflexivity|]. apply filter_In. split; [apply In_dict_set|reflexivity].
    + assert (Q0 : In x (map fst (pb_count b))) by (destruct (flag b v); [exact Q|apply keys_inc in Q as [Q|Q]; [contradiction|exact Q]]).
      destruct (G4 x Q0) as [Q'|Q']; [auto|]. right. apply in_map_iff in Q' as ([y f] & Ey & Q'). cbn in Ey. subst y. apply filter_In in Q' as [Q' Q2].
      apply in_map_iff. exists (x, f). split; [reflexivity|]. apply filter_In. split; [apply In_dict_other; assumption|exact Q2].
  - intros x f I. apply In_set in I as [[-> ->]|I].
    + split; [reflexivity|]. intros E. rewrite E. apply keys_inc. auto.
    + destruct (G5 x f I) as [Q1 Q2]. split; [exact Q1|]. intros E. apply M; auto.
Qed.

(* --- dictionaries of blocks --- *)
Definition step (bs bs' : pblocks) : Prop := Forall2 (fun x y => fst x = fst y /\ kept (snd x) (snd y)) bs bs'.
Definition all_good (bs : pblocks) : Prop := Forall (fun x => good (snd x)) bs.
Lemma step_refl bs : step bs bs.
Proof. induction bs; constructor; auto using kept_refl. Qed.
Lemma step_trans a b c : step a b -> step b c -> step a c.
Proof.
  intros H. revert c. induction H as [|x y a b [E K] H IH]; intros c H'; inversion H' as [|? z ? c' [E' K'] H'']; subst; constructor; [|apply IH; exact H''].
  split; [congruence|eapply kept_trans; eassumption].
Qed.
Lemma step_set k b b' bs : lookup k bs = Some b -> kept b b' -> good b' -> all_good bs -> step bs (dict_set k b' bs) /\ all_good (dict_set k b' bs).
Proof.
  intros L K G. induction bs as [|[k0 b0] bs IH]; cbn in *; [discriminate|]. intros A. inversion A as [|? ? G0 A']; subst.
  destruct (String.eqb_spec k0 k) as [->|N].
  - injection L as ->. split; [constructor; [auto|apply step_refl]|constructor; assumption].
  - destruct (IH L A') as [S1 S2]. split; [constructor; [auto using kept_refl|exact S1]|constructor; assumption].
Qed.
Lemma lookup_good k b bs : lookup k bs = Some b -> all_good bs -> good b.
Proof. intros L A. apply RemoveProps.lookup_In in L. unfold all_good in A. rewrite Forall_forall in A. apply (A _ L). Qed.
Lemma fix_args_step : forall args entries handled defs bs todo bs' todo', all_good bs -> fix_args args entries handled defs bs todo = Ok (bs', todo') ->
  step bs bs' /\ all_good bs'.
Proof.
  induction args as [|a args IH]; intros entries handled defs bs todo bs' todo' A H; cbn [fix_args] in H.
  - injection H as <- <-. split; [apply step_refl|exact A].
  - destruct entries as [|e entries]; [injection H as <- <-; split; [apply step_refl|exact A]|].
    apply bind_ok in H as (be & L & H). apply bind_ok in H as (todo1 & _ & H).
    destruct (lookup e bs) as [be0|] eqn:Lb; [|discriminate]. injection L as ->.
    destruct (good_copy be a (lookup_good _ _ _ Lb A)) as [Gc Kc]. destruct (step_set _ _ _ _ Lb Kc Gc A) as [S1 A1].
    destruct (IH _ _ _ _ _ _ _ A1 H) as [S2 A2]. split; [eapply step_trans; eassumption|exact A2].
Qed.
Lemma fix_loop_step : forall fuel todo handled defs bs joined w handled' bs' joined' w', all_good bs ->
  fix_loop fuel todo handled defs bs joined w = Ok (handled', bs', joined', w') -> step bs bs' /\ all_good bs'.
Proof.
  induction fuel as [|fuel IH]; intros todo handled defs bs joined w handled' bs' joined' w' A H; destruct todo as [|[v name] todo]; cbn [fix_loop] in H; try discriminate;
    try (injection H as <- <- <- <-; split; [apply step_refl|exact A]).
  apply bind_ok in H as (b & L & H). apply bind_ok in H as (args & La & H). apply bind_ok in H as ([bs2 todo2] & Fa & H). apply bind_ok in H as (w1 & _ & H).
  destruct (lookup name bs) as [b0|] eqn:Lb; [|discriminate]. injection L as ->.
  destruct (step_set name b (with_solve b (set_add v (pb_solve b))) bs Lb) as [S1 A1];
    [unfold kept; cbn; repeat split|apply good_solve, (lookup_good _ _ _ Lb A)|exact A|].
  destruct (fix_args_step _ _ _ _ _ _ _ _ A1 Fa) as [S2 A2]. destruct (IH _ _ _ _ _ _ _ _ _ _ A2 H) as [S3 A3].
  split; [|exact A3]. eapply step_trans; [exact S1|]. eapply step_trans; eassumption.
Qed.
Lemma fix_phi_step fuel to_fix bs bs' joined w : all_good bs -> fix_phi_values fuel to_fix bs = Ok (bs', joined, w) -> step bs bs' /\ all_good bs'.
Proof.
  unfold fix_phi_values. intros A H. apply bind_ok in H as ([[[h b1] j1] w1] & H & E). injection E as <- <- <-. revert H.
  set (defs := phi_def2block bs). clearbody defs.
  match goal with |- for_each ?F ?E ?S0 = _ -> _ => generalize E end. intros es.
  generalize (@nil string) at 1, (@nil (string * list string)), empty_webs. revert bs A.
  induction es as [|v es IH]; intros bs A h0 j0 w0 H; cbn [for_each] in H.
  - injection H as <- <- <- <-. split; [apply step_refl|exact A].
  - apply bind_ok in H as ([[[h2 b2] j2] w2] & H1 & H2). apply bind_ok in H1 as (name & _ & H1).
    destruct (fix_loop_step _ _ _ _ _ _ _ _ _ _ _ A H1) as [S1 A1]. destruct (IH _ A1 _ _ _ H2) as [S2 A2].
    split; [eapply step_trans; eassumption|exact A2].
Qed.

(* --- trees --- *)
Definition re_list (bs : pblocks) := fix go (ch : list ptree) : result (list ptree) :=
  match ch with [] => Ok [] | t' :: ch' => do t'' <- reblock bs t'; do ch'' <- go ch'; Ok (t'' :: ch'') end.
Lemma reblock_blocks bs t : forall t', reblock bs t = Ok t' -> Forall2 (fun b b' => lookup (pb_name b) bs = Some b') (tree_blocks t) (tree_blocks t').
Proof.
  induction t as [b ch IH] using ptree_ind'. intros t' H. cbn [reblock] in H. apply bind_ok in H as (b' & L & H). fold (re_list bs) in H.
  apply bind_ok in H as (ch' & R & H). injection H as <-. cbn. constructor; [destruct (lookup (pb_name b) bs); [injection L as ->; reflexivity|discriminate]|].
  clear L. revert ch' R. induction IH as [|t ch Ht _ IHc]; intros ch' R; cbn [re_list] in R; [injection R as <-; constructor|].
  apply bind_ok in R as (t1 & R1 & R). apply bind_ok in R as (ch1 & R2 & R). injection R as <-. cbn. apply Forall2_app; [apply Ht; exact R1|apply IHc; exact R2].
Qed.
Lemma lookup_all (bs : pblocks) (bs0 : list pblock) : map fst bs = map pb_name bs0 -> NoDup (map fst bs) -> forall l, Forall2 (fun b b' => lookup (pb_name b) bs = Some b') bs0 l -> l = map snd bs.
Proof.
  intros E N l F.
  assert (G : forall (cs : pblocks) (bs0 l : list pblock), map fst cs = map pb_name bs0 -> (forall x, In x cs -> In x bs) -> Forall2 (fun b b' => lookup (pb_name b) bs = Some b') bs0 l -> l = map snd cs).
  { clear bs0 E l F. induction cs as [|[k c] cs IH]; intros bs0 l E I F; destruct bs0 as [|b bs0]; cbn in E; try discriminate; inversion F; subst; [reflexivity|].
    injection E as Ek E. cbn. f_equal; [|eapply IH; [exact E|intros x Q; apply I; right; exact Q|assumption]].
    rewrite <- Ek in *. rewrite (LevelProps.lookup_NoDup k c bs N) in H1; [congruence|apply I; left; reflexivity]. }
  apply (G bs bs0 l E (fun x I => I) F).
Qed.
Definition con_list depth u := fix go (ch : list ptree) : result (list ptree) :=
  match ch with [] => Ok [] | t' :: ch' => do t'' <- construct_reachability depth u t'; do ch'' <- go ch'; Ok (t'' :: ch'') end.
Lemma construct_blocks depth t : forall prev t', construct_reachability depth prev t = Ok t' ->
  Forall2 (fun b b' => exists r u, reachability_from_greedy depth (pb_ids b) (pb_src b) (pb_instrs b) (pb_call b) = Ok r /\ b' = with_reach b r u) (tree_blocks t) (tree_blocks t').
Proof.
  induction t as [b ch IH] using ptree_ind'. intros prev t' H. cbn [construct_reachability] in H. apply bind_ok in H as (r & L & H).
  set (u := block_unreachability (map fst r) prev (pb_live_in b) (pb_declared b)) in *. fold (con_list depth u) in H.
  apply bind_ok in H as (ch' & R & H). injection H as <-. cbn. constructor; [eauto|].
  clear L. revert ch' R. generalize u. clear u. intros u. induction IH as [|t ch Ht _ IHc]; intros ch' R; cbn [con_list] in R; [injection R as <-; constructor|].
  apply bind_ok in R as (t1 & R1 & R). apply bind_ok in R as (ch1 & R2 & R). injection R as <-. cbn. apply Forall2_app; [eapply Ht; exact R1|apply IHc; exact R2].
Qed.
Lemma pmap_blocks g t : tree_blocks (pmap g t) = map g (tree_blocks t).
Proof.
  induction t as [b ch IH] using ptree_ind'. cbn. f_equal. induction IH as [|t ch Ht _ IHc]; [reflexivity|]. cbn. rewrite Ht, map_app, IHc. reflexivity.
Qed.
Lemma fresh_good depth b r u : reachability_from_greedy depth (pb_ids (fresh_info b)) (pb_src (fresh_info b)) (pb_instrs (fresh_info b)) (pb_call (fresh_info b)) = Ok r ->
  good (with_reach (fresh_info b) r u).
Proof.
  intros R. split; [eapply reachability_first; exact R|]. split; [apply initial_cwf|]. split; [auto|]. split; [auto|]. split; [intros v f []|constructor].
Qed.

(** The tree handed to the placement of the stores. *)
Lemma repair_tree_before depth fuel order f to_fix t t' rest n k : NoDup (map pb_name (tree_blocks t)) ->
  repair_tree depth fuel order f to_fix t = Ok (t', rest, n, k) ->
  exists t2 headers m, (forall b, pin b t2 -> good b) /\ map pb_name (tree_blocks t2) = map pb_name (tree_blocks t) /\ pb_name (proot t2) = pb_name (proot t) /\
    variable2block_header (map (fun b => (pb_name b, b)) (tree_blocks t2)) (pb_name (proot t2)) f = Ok headers /\
    store_tree order (within_loop f headers) (tree_blocks t2) t2 = Ok (t', rest, m).
Proof.
  unfold repair_tree. intros ND H. apply bind_ok in H as (t1 & C & H). apply bind_ok in H as ([[bs joined] w] & F & H). apply bind_ok in H as (t2 & R & H).
  apply bind_ok in H as (headers & V & H). apply bind_ok in H as ([[t3 rest'] m] & S & H).
  assert (E3 : t3 = t' /\ rest' = rest).
  { destruct (0 <? m + length (w_class w))%nat; [apply bind_ok in H as (k0 & _ & H)|]; injection H; auto. }
  destruct E3 as [-> ->]. clear H.
  apply construct_blocks in C. rewrite pmap_blocks in C.
  assert (N1 : map pb_name (tree_blocks t1) = map pb_name (tree_blocks t)).
  { clear -C. revert C. generalize (tree_blocks t1). induction (tree_blocks t) as [|b l IH]; intros l1 C; inversion C as [|? b1 ? l1' (r & u & _ & ->) C']; subst; [reflexivity|].
    cbn. f_equal. apply IH. exact C'. }
  assert (A1 : all_good (map (fun b => (pb_name b, b)) (tree_blocks t1))).
  { clear -C. unfold all_good. revert C. generalize (tree_blocks t1). induction (tree_blocks t) as [|b l IH]; intros l1 C; inversion C as [|? b1 ? l1' (r & u & Q & ->) C']; subst; constructor.
    - eapply fresh_good. exact Q.
    - apply IH. exact C'. }
  destruct (fix_phi_step _ _ _ _ _ _ A1 F) as [St A2].
  assert (Kf : map fst bs = map pb_name (tree_blocks t1) /\ map pb_name (map snd bs) = map pb_name (tree_blocks t1) /\ bs = map (fun b => (pb_name b, b)) (map snd bs)).
  { clear -St. revert bs St. induction (tree_blocks t1) as [|b l IH]; intros bs St; inversion St as [|? [k c] ? bs' [E K] St']; subst; [auto|]. cbn in E, K.
    destruct (IH _ St') as (I1 & I2 & I3). destruct K as (K & _). cbn. rewrite K, I1, I2, <- I3, E. auto. }
  destruct Kf as (Kf & Kn & Kb).
  assert (E2 : tree_blocks t2 = map snd bs).
  { eapply lookup_all; [exact Kf|rewrite Kf, N1; exact ND|]. apply reblock_blocks. exact R. }
  assert (Er : forall t, exists l, tree_blocks t = proot t :: l) by (intros [b ch]; cbn; eauto).
  assert (Ep : pb_name (proot t2) = pb_name (proot t)).
  { destruct (Er t2) as [l2 H2]. destruct (Er t) as [l0 H0].
    assert (Q : map pb_name (tree_blocks t2) = map pb_name (tree_blocks t)) by (rewrite E2, Kn, N1; reflexivity). rewrite H2, H0 in Q. cbn in Q. congruence. }
  exists t2, headers, m. split.
  { intros b I. apply pin_blocks in I. rewrite E2 in I. unfold all_good in A2. rewrite Forall_forall in A2. apply in_map_iff in I as (x & <- & I). apply A2, I. }
  split; [rewrite E2, Kn, N1; reflexivity|]. split; [exact Ep|]. rewrite E2, <- Kb, Ep. split; [|exact S]. destruct t. exact V.
Qed.

(* --- the block that defines a variable is in the loop of the variable --- *)
Lemma fold_headers (h : string) l : forall d x, lookup x (fold_left (fun d v => dict_set v h d) l d) = if mem x l then Some h else lookup x d.
Proof.
  induction l as [|y l IH]; intros d x; cbn [fold_left]; [reflexivity|]. rewrite IH, lookup_dict_set. unfold mem. cbn [existsb].
  rewrite (String.eqb_sym x y). destruct (y =? x); cbn; [|reflexivity]. destruct (existsb (String.eqb x) l); reflexivity.
Qed.
Definition header_of (f : forest) (id : string) : option string :=
  match f_succs f id with [] => match f_preds f id with [p] => Some p | _ => None end | _ => Some id end.
Lemma headers_spec (bs : pblocks) f v : forall nodes (d d' : list (string * string)), for_each (fun d id =>
    do b <- of_option (lookup id bs);
    match f_succs f id with
    | [] => do p <- (match f_preds f id with [p] => Ok p | _ => Raise AssertionError end);
            Ok (fold_left (fun d v => dict_set v p d) (pb_declared b) d)
    | _ => Ok (fold_left (fun d v => dict_set v id d) (pb_declared b) d)
    end) nodes d = Ok d' ->
  (forall id b, In id nodes -> lookup id bs = Some b -> In v (pb_declared b) -> exists id' b', In id' nodes /\ lookup id' bs = Some b' /\ In v (pb_declared b') /\
     lookup v d' = header_of f id' /\ lookup v d' <> None) /\
  ((forall id b, In id nodes -> lookup id bs = Some b -> ~ In v (pb_declared b)) -> lookup v d' = lookup v d).
Proof.
  induction nodes as [|id nodes IH]; intros d d' H; cbn [for_each] in H; [injection H as <-; split; [intros id b []|reflexivity]|].
  apply bind_ok in H as (d1 & H1 & H). apply bind_ok in H1 as (b & L & H1). destruct (lookup id bs) as [b0|] eqn:Lb; [|discriminate]. injection L as ->.
  assert (X : exists h, header_of f id = Some h /\ d1 = fold_left (fun d v => dict_set v h d) (pb_declared b) d).
  { unfold header_of. destruct (f_succs f id); [|injection H1 as <-; eauto]. destruct (f_preds f id) as [|p [|]]; try discriminate. injection H1 as <-. eauto. }
  destruct X as (h & Eh & ->). destruct (IH _ _ H) as [I1 I2].
  assert (D : (exists id b, In id nodes /\ lookup id bs = Some b /\ In v (pb_declared b)) \/ (forall id b, In id nodes -> lookup id bs = Some b -> ~ In v (pb_declared b))).
  { clear. induction nodes as [|id nodes IH]; [right; intros id b []|]. destruct IH as [(i & b & Q1 & Q2)|IH]; [left; exists i, b; split; [right; exact Q1|exact Q2]|].
    destruct (lookup id bs) as [b|] eqn:L.
    - destruct (mem v (pb_declared b)) eqn:M; [left; exists id, b; split; [left; reflexivity|]; split; [exact L|apply mem_In, M]|].
      right. intros i c [<-|Q] Lc; [|eapply IH; eassumption]. rewrite L in Lc. injection Lc as <-. apply mem_false, M.
    - right. intros i c [<-|Q] Lc; [congruence|eapply IH; eassumption]. }
  destruct D as [(i & c & Q1 & Q2 & Q3)|D].
  - split; [|intros N; exfalso; apply (N i c); [right; exact Q1|exact Q2|exact Q3]].
    intros _ _ _ _ _. destruct (I1 i c Q1 Q2 Q3) as (i' & c' & J1 & J2). exists i', c'. split; [right; exact J1|exact J2].
  - rewrite (I2 D), fold_headers. split.
    + intros i c [<-|Q] Lc Dc; [|exfalso; eapply D; eassumption]. rewrite Lb in Lc. injection Lc as <-. exists id, b. split; [left; reflexivity|]. split; [exact Lb|]. split; [exact Dc|].
      apply mem_In in Dc. rewrite Dc. split; [congruence|discriminate].
    + intros N. specialize (N id b (or_introl eq_refl) Lb). apply mem_false in N. rewrite N. reflexivity.
Qed.
Lemma entry_header f id h : (forall a b, In (a, b) (f_edges f) -> In a (f_nodes f)) -> In id (f_nodes f) -> header_of f id = Some h -> entry_loop f h = entry_loop f id.
Proof.
  intros Wf In_ E. unfold header_of in E. unfold entry_loop at 2. apply mem_In in In_. rewrite In_.
  destruct (f_succs f id) as [|s0 ss] eqn:Es.
  - destruct (f_preds f id) as [|p [|]] eqn:Ep; try discriminate. injection E as <-. cbn.
    assert (Ie : In (p, id) (f_edges f)).
    { assert (Q : In p (f_preds f id)) by (rewrite Ep; left; reflexivity). unfold f_preds in Q. apply in_map_iff in Q as ([a b] & <- & Q). apply filter_In in Q as [Q1 Q2].
      cbn in *. apply String.eqb_eq in Q2. subst. exact Q1. }
    assert (M : mem p (f_nodes f) = true) by (apply mem_In; eapply Wf; exact Ie).
    unfold entry_loop. rewrite M. assert (Is : In id (f_succs f p)).
    { unfold f_succs. apply in_map_iff. exists (p, id). split; [reflexivity|]. apply filter_In. split; [exact Ie|]. cbn. apply String.eqb_refl. }
    destruct (f_succs f p); [destruct Is|reflexivity].
  - injection E as <-. unfold entry_loop. rewrite In_, Es. reflexivity.
Qed.
Lemma opt_eqb_refl a : opt_eqb a a = true.
Proof. destruct a; cbn; [apply String.eqb_refl|reflexivity]. Qed.
Lemma lookup_tree_block l b : NoDup (map pb_name l) -> In b l -> lookup (pb_name b) (map (fun b => (pb_name b, b)) l) = Some b.
Proof.
  intros N I. apply LevelProps.lookup_NoDup; [rewrite map_map; exact N|]. apply in_map_iff. exists b. auto.
Qed.
Lemma lookup_tree_inv l id b : lookup id (map (fun b => (pb_name b, b)) l) = Some b -> In b l /\ pb_name b = id.
Proof. intros L. apply RemoveProps.lookup_In in L. apply in_map_iff in L as (b' & E & I). injection E as <- <-. auto. Qed.
Lemma within_definition t f headers b v : NoDup (map pb_name (tree_blocks t)) -> (forall a b, In (a, b) (f_edges f) -> In a (f_nodes f)) ->
  variable2block_header (map (fun b => (pb_name b, b)) (tree_blocks t)) (pb_name (proot t)) f = Ok headers ->
  only_definition t b v -> within_loop f headers v (pb_name b) = true.
Proof.
  intros N Wf H (Ib & D & U). unfold variable2block_header in H. apply bind_ok in H as (d & H & E). apply bind_ok in E as (b0 & L & E). injection E as <-.
  assert (Er : In (proot t) (tree_blocks t)) by (destruct t; left; reflexivity).
  rewrite (lookup_tree_block _ _ N Er) in L. injection L as <-.
  unfold within_loop. rewrite fold_headers. destruct (mem v (pb_src (proot t))) eqn:M.
  - apply mem_In in M. assert (Q : proot t = b) by (apply U; [apply pin_blocks, Er|right; auto]). rewrite Q. apply opt_eqb_refl.
  - apply mem_false in M. assert (Db : In v (pb_declared b)) by (destruct D as [D|[-> D]]; [exact D|contradiction]).
    destruct (headers_spec (map (fun b => (pb_name b, b)) (tree_blocks t)) f v _ _ _ H) as [S1 S2].
    destruct (mem (pb_name b) (f_nodes f)) eqn:Mn.
    + apply mem_In in Mn. destruct (S1 _ b Mn (lookup_tree_block _ _ N (proj1 (pin_blocks _ _) Ib)) Db) as (id' & b' & J1 & J2 & J3 & J4 & J5).
      apply lookup_tree_inv in J2 as [J2 <-]. assert (Q : b' = b) by (apply U; [apply pin_blocks, J2|left; exact J3]). subst b'.
      destruct (lookup v d) as [h|] eqn:Lv; [|contradiction]. rewrite (entry_header f (pb_name b) h Wf Mn (eq_sym J4)). apply opt_eqb_refl.
    + rewrite S2; [cbn; reflexivity|].
      intros id c I L Dc. apply lookup_tree_inv in L as [L <-]. assert (Q : c = b) by (apply U; [apply pin_blocks, L|left; exact Dc]). subst c.
      apply mem_false in Mn. contradiction.
Qed.
