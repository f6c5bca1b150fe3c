(** C46: the repair of phi functions ends and takes care of exactly the values
    that need it. *)
From Coq Require Import Lia.
From Verif Require Import Base UtilModel UtilProps UnifyProps LevelProps CfgProps WebModel WebProps PlaceModel PlaceSpec PlaceProps PhiRepairSpec PhiRepair.
Open Scope string_scope. Open Scope list_scope.

(* --- the table of definitions --- *)
Definition put_pairs (L : list (string * string)) (d : list (string * string)) := fold_left (fun d p => dict_set (fst p) (snd p) d) L d.
Lemma put_pairs_source L : forall d v x, lookup v (put_pairs L d) = Some x -> In (v, x) L \/ lookup v d = Some x.
Proof.
  unfold put_pairs. induction L as [|(k, y) L IH]; intros d v x H; cbn [fold_left fst snd] in H; [now right|].
  destruct (IH _ _ _ H) as [I|E]; [left; now right|]. rewrite lookup_dict_set in E. destruct (String.eqb_spec k v) as [->|]; [injection E as ->; left; now left|now right].
Qed.
Lemma put_pairs_some L : forall d v, In v (map fst L) \/ lookup v d <> None -> lookup v (put_pairs L d) <> None.
Proof.
  unfold put_pairs. induction L as [|(k, y) L IH]; intros d v H; cbn [fold_left fst snd]; [destruct H as [[]|H]; exact H|].
  apply IH. destruct H as [[<-|I]|H]; [right|now left|right]; rewrite lookup_dict_set; cbn [fst]; [rewrite String.eqb_refl; discriminate|destruct (String.eqb k v); [discriminate|exact H]].
Qed.
Definition phi_pairs (bs : pblocks) : list (string * string) := flat_map (fun nb => map (fun phi => (fst phi, fst nb)) (pb_phis (snd nb))) bs.
Lemma fold_pairs {A} (n : string) (l : list (string * A)) : forall d, fold_left (fun d phi => dict_set (fst phi) n d) l d = put_pairs (map (fun phi => (fst phi, n)) l) d.
Proof. unfold put_pairs. induction l as [|p l IH]; intros d; [reflexivity|]. cbn. apply IH. Qed.
Lemma defs_pairs bs : phi_def2block bs = put_pairs (phi_pairs bs) [].
Proof.
  unfold phi_def2block, phi_pairs. generalize (@nil (string * string)). induction bs as [|nb bs IH]; intros d; [reflexivity|].
  cbn [fold_left flat_map]. rewrite IH, fold_pairs. unfold put_pairs. now rewrite fold_left_app.
Qed.
Lemma in_pairs bs v x : NoDup (map fst bs) -> In (v, x) (phi_pairs bs) <-> exists args, phi_in bs x v args.
Proof.
  intros N. unfold phi_pairs. rewrite in_flat_map. split.
  - intros ((y, b) & I & J). cbn [fst snd] in J. apply in_map_iff in J as ((u, args) & E & J). injection E as -> ->.
    assert (In v (map fst (pb_phis b))) as K by (apply in_map_iff; now exists (v, args)). apply key_lookup in K as (a & K).
    exists a, b. split; [|exact K]. now apply lookup_NoDup.
  - intros (args & b & L & P). exists (x, b). split; [now apply lookup_In|]. cbn [fst snd]. apply in_map_iff. exists (v, args). split; [reflexivity|]. now apply lookup_In.
Qed.
Lemma defs_spec bs v x : single_phis bs -> lookup v (phi_def2block bs) = Some x <-> exists args, phi_in bs x v args.
Proof.
  intros (N & _ & U). rewrite defs_pairs. split.
  - intros H. destruct (put_pairs_source _ _ _ _ H) as [I|E]; [now apply in_pairs|discriminate].
  - intros (args & P). destruct (lookup v (put_pairs (phi_pairs bs) [])) as [y|] eqn:E.
    + destruct (put_pairs_source _ _ _ _ E) as [I|E']; [|discriminate]. apply in_pairs in I as (args' & P'); [|exact N]. f_equal. exact (U _ _ _ _ _ P' P).
    + exfalso. revert E. apply put_pairs_some. left. apply (in_map fst _ (v, x)). apply in_pairs; eauto.
Qed.

(* --- all elements --- *)
Section All.
Variables (bs : pblocks) (to_fix : list string).
Let defs := phi_def2block bs.
Definition asked : list string := filter (fun v => match lookup v defs with
    | Some name => match lookup name bs with Some b => mem v (pb_unreach b) | None => false end
    | None => false end) to_fix.
Definition run (fuel : nat) (st : list string * pblocks * list (string * list string) * webs) (v : string) :=
  let '(handled, bs', joined, w) := st in do name <- of_option (lookup v defs); fix_loop fuel [(v, name)] handled defs bs' joined w.
Definition good_state (st : list string * pblocks * list (string * list string) * webs) : Prop :=
  let '(handled, bs', joined, w) := st in
  state bs bs' (wanted defs handled) (given bs defs handled) /\ stack_inv bs defs [] handled /\ joined_ok bs defs handled joined /\ join_all joined = Ok w.

Lemma start_good : untouched bs -> good_state ([], bs, [], empty_webs).
Proof.
  intros UT. split; [|split; [|split]].
  - split; [reflexivity|]. intros x b L. exists b. split; [exact L|]. split; [apply same_code_refl|]. destruct (UT x b L) as (-> & ->).
    split; intros v; cbn; [split; [intros []|intros ([] & _)]|split; [intros []|intros (u & [] & _)]].
  - split; [intros ? ? []|intros [|? ?]; discriminate|intros ? ? []].
  - split; [intros v; cbn; tauto|intros ? ? []].
  - reflexivity.
Qed.
Lemma push_one v name handled : lookup v defs = Some name -> stack_inv bs defs [] handled -> stack_inv bs defs [(v, name)] handled.
Proof.
  intros D [_ _ C]. split.
  - intros u n [E|[]]. injection E as <- <-. exact D.
  - intros [|p pre] u n post a E I P; [|destruct pre; discriminate]. destruct (C u a I P) as [?|[]]. now left.
  - intros u a I P. destruct (C u a I P) as [?|[]]. now left.
Qed.

Lemma run_good fuel st v st' : good_state st -> run fuel st v = Ok st' -> good_state st'
  /\ (forall u, In u (fst (fst (fst st))) -> In u (fst (fst (fst st')))) /\ In v (fst (fst (fst st')))
  /\ forall u, In u (fst (fst (fst st'))) -> In u (fst (fst (fst st))) \/ reaches bs defs v u.
Proof.
  destruct st as (((handled, bs1), joined), w). destruct st' as (((handled', bs'), joined'), w'). intros (ST & SI & JO & JA) H. unfold run in H.
  destruct (lookup v defs) as [name|] eqn:D; cbn [of_option bind] in H; [|discriminate].
  destruct (loop_spec bs defs fuel _ _ _ _ _ _ _ _ _ ST (push_one v name handled D SI) JO JA H) as (A1 & A2 & A3 & A4 & A5 & A6 & A7).
  cbn [fst]. split; [exact (conj A1 (conj A2 (conj A3 A4)))|]. split; [exact A5|]. split; [apply A6; now left|].
  intros u I. destruct (A7 u I) as [?|(v' & [<-|[]] & R)]; [now left|now right].
Qed.
Lemma runs_good fuel vs : forall st st', good_state st -> for_each (run fuel) vs st = Ok st' -> good_state st'
  /\ (forall u, In u (fst (fst (fst st))) -> In u (fst (fst (fst st')))) /\ (forall v, In v vs -> In v (fst (fst (fst st'))))
  /\ forall u, In u (fst (fst (fst st'))) -> In u (fst (fst (fst st))) \/ exists v, In v vs /\ reaches bs defs v u.
Proof.
  induction vs as [|v vs IH]; intros st st' G H; cbn [for_each] in H.
  - injection H as <-. split; [exact G|]. split; [auto|]. split; [intros ? []|auto].
  - destruct (run fuel st v) as [st1|] eqn:R; cbn [bind] in H; [|discriminate].
    destruct (run_good _ _ _ _ G R) as (G1 & M1 & I1 & F1). destruct (IH _ _ G1 H) as (G2 & M2 & I2 & F2).
    split; [exact G2|]. split; [auto|]. split; [intros u [<-|I]; auto|].
    intros u I. destruct (F2 u I) as [K|(x & K & P)]; [|right; exists x; split; [now right|exact P]].
    destruct (F1 u K) as [?|P]; [now left|right; exists v; split; [now left|exact P]].
Qed.
Lemma runs_end vs : forall st, good_state st -> exists n, forall fuel, n <= fuel -> for_each (run fuel) vs st <> Raise OutOfFuel.
Proof.
  induction vs as [|v vs IH]; intros st G; [exists 0; intros; discriminate|].
  assert (E : exists n, run n st v <> Raise OutOfFuel).
  { destruct st as (((handled, bs1), joined), w). destruct G as (ST & SI & JO & JA). unfold run.
    destruct (lookup v defs) as [name|] eqn:D; [|exists 0; discriminate]. cbn [of_option bind].
    eapply loop_ends; [reflexivity|reflexivity|exact ST|exact (push_one v name handled D SI)|exact JA]. }
  destruct E as (n1 & E).
  assert (Mo : forall fuel, n1 <= fuel -> run fuel st v = run n1 st v).
  { intros fuel L. destruct st as (((handled, bs1), joined), w). unfold run in *. destruct (lookup v defs) as [name|]; [|reflexivity]. cbn [of_option bind] in *. now apply loop_more. }
  destruct (run n1 st v) as [st1|e] eqn:R.
  - destruct (run_good _ _ _ _ G R) as (G1 & _). destruct (IH st1 G1) as (n2 & H2). exists (Nat.max n1 n2). intros fuel L. cbn [for_each]. rewrite Mo by lia. cbn [bind]. apply H2. lia.
  - exists n1. intros fuel L. cbn [for_each]. rewrite Mo by exact L. cbn [bind]. exact E.
Qed.
Lemma fix_is_run fuel : fix_phi_values fuel to_fix bs = do r <- for_each (run fuel) asked ([], bs, [], empty_webs); let '(_, bs', joined, w) := r in Ok (bs', joined, w).
Proof. reflexivity. Qed.
End All.

Lemma firstn_In {A} n (l : list A) a : In a (firstn n l) <-> exists k, k < n /\ nth_error l k = Some a.
Proof.
  revert l. induction n as [|n IH]; intros l; [split; [intros []|intros (k & L & _); lia]|].
  destruct l as [|x l]; [split; [intros []|intros ([|k] & _ & ?); discriminate]|]. cbn [firstn In]. rewrite IH. split.
  - intros [->|(k & L & E)]; [exists 0; split; [lia|reflexivity]|exists (S k); split; [lia|exact E]].
  - intros ([|k] & L & E); [left; now injection E|right; exists k; split; [lia|exact E]].
Qed.

(** The repair of phi functions always ends: with a value, or because an
    argument that cannot be reached is not the result of a phi function. *)
Theorem phi_repair_ends : forall bs to_fix, untouched bs -> exists n, forall fuel, n <= fuel -> fix_phi_values fuel to_fix bs <> Raise OutOfFuel.
Proof.
  intros bs to_fix UT. destruct (runs_end bs (asked bs to_fix) _ (start_good bs UT)) as (n & H). exists n. intros fuel L. rewrite fix_is_run.
  specialize (H fuel L). destruct (for_each _ _ _) as [(((h, b), j), w)|e]; cbn [bind]; [discriminate|congruence].
Qed.
Print Assumptions phi_repair_ends.

(** When it ends with a value, the phi functions solved through registers, the
    values copied at the ends of blocks and the phi functions whose values share
    a register are those the specification names; nothing else is changed. *)
Theorem phi_repair_exact : forall fuel bs to_fix bs' joined w, single_phis bs -> untouched bs ->
  fix_phi_values fuel to_fix bs = Ok (bs', joined, w) ->
  map fst bs' = map fst bs
  /\ (forall x b, lookup x bs = Some b -> exists b', lookup x bs' = Some b' /\ same_code b b'
       /\ (forall v, In v (pb_solve b') <-> slotted bs to_fix v /\ exists args, phi_in bs x v args)
       /\ (forall a, In a (map fst (pb_copies b')) <-> exists v, slotted bs to_fix v /\ phi_takes bs v a x))
  /\ join_all joined = Ok w
  /\ (forall v, In v (map fst joined) <-> slotted bs to_fix v)
  /\ (forall v used, In (v, used) joined -> forall a, In a used <-> exists e, phi_takes bs v a e).
Proof.
  intros fuel bs to_fix bs' joined w SP UT H. rewrite fix_is_run in H.
  destruct (for_each _ _ _) as [(((handled, bs1), joined1), w1)|e] eqn:R in H; cbn [bind] in H; [|discriminate]. injection H as -> -> ->.
  destruct (runs_good bs fuel _ _ _ (start_good bs UT) R) as ((ST & SI & (JO1 & JO2) & JA) & _ & All & From). cbn [fst] in All, From.
  assert (D : forall v x, lookup v (phi_def2block bs) = Some x <-> exists args, phi_in bs x v args) by (intros; now apply defs_spec).
  assert (T : forall v a e, takes bs (phi_def2block bs) v a e <-> phi_takes bs v a e).
  { intros v a e. split; [intros (x & b & args & k & _ & Q); now exists x, b, args, k|].
    intros (x & b & args & k & L & P & Q). exists x, b, args, k. split; [|auto]. apply D. exists args, b. auto. }
  assert (P : forall v a, pending bs (phi_def2block bs) v a <-> exists e, phi_takes bs v a e /\ unreachable_in bs e a).
  { intros v a. split.
    - intros (x & b & args & k & e & be & Dv & L & Pa & N1 & N2 & Le & U). exists e. split; [now exists x, b, args, k|now exists be].
    - intros (e & (x & b & args & k & L & Pa & N1 & N2) & (be & Le & U)). exists x, b, args, k, e, be. split; [apply D; exists args, b; auto|auto 10]. }
  assert (A : forall v, In v (asked bs to_fix) <-> In v to_fix /\ exists x args, phi_in bs x v args /\ unreachable_in bs x v).
  { intros v. unfold asked. rewrite filter_In. split.
    - intros (I & C). split; [exact I|]. destruct (lookup v (phi_def2block bs)) as [x|] eqn:E; [|discriminate].
      destruct (lookup x bs) as [b|] eqn:L; [|discriminate]. apply mem_In in C. apply D in E as (args & Q). exists x, args. split; [exact Q|now exists b].
    - intros (I & x & args & Q & (b & L & U)). split; [exact I|]. assert (lookup v (phi_def2block bs) = Some x) as -> by (apply D; eauto). rewrite L. now apply mem_In. }
  assert (S : forall v, In v handled <-> slotted bs to_fix v).
  { intros v. split.
    - intros I. destruct (From v I) as [[]|(u & Iu & Rv)]. clear I. induction Rv as [|c a Rc IH Q].
      + apply A in Iu as (I & x & args & Q & U). eapply slotted_asked; eauto.
      + apply P in Q as (e & Q & U). eapply slotted_arg; eauto.
    - intros Sv. induction Sv as [v x args I Q U|v a e Sv IH Q U]; [apply All, A; eauto|].
      destruct (si_closed _ _ _ _ SI v a IH) as [?|[]]; [apply P; eauto|assumption]. }
  split; [exact (st_keys _ _ _ _ ST)|]. split; [|split; [exact JA|split]].
  - intros x b L. destruct (st_block _ _ _ _ ST x b L) as (b' & L' & SC & R1 & R2). exists b'. split; [exact L'|]. split; [exact SC|]. split.
    + intros v. rewrite R1. unfold wanted. rewrite (S v), (D v x). reflexivity.
    + intros a. rewrite R2. unfold given. split; intros (v & Q1 & Q2); exists v; (split; [now apply S|now apply T]).
  - intros v. rewrite <- JO1. apply S.
  - intros v used I a. destruct (JO2 v used I) as (x & b & args & Dv & L & Pa & ->). rewrite firstn_In. split.
    + intros (k & Lk & E). destruct (nth_error (pb_entries b) k) as [e|] eqn:Ee; [|apply nth_error_None in Ee; lia]. exists e. now exists x, b, args, k.
    + intros (e & y & c & args' & k & Ly & Py & N1 & N2).
      assert (lookup v (phi_def2block bs) = Some y) as Dy by (apply D; exists args', c; auto). rewrite Dv in Dy. injection Dy as <-. rewrite L in Ly. injection Ly as <-.
      rewrite Pa in Py. injection Py as <-. exists k. split; [|exact N1]. apply nth_error_Some. congruence.
Qed.
Print Assumptions phi_repair_exact.

(** Two phi functions of a loop that use each other; both are too deep, and so is
    the first value of one of them. *)
Definition pblk (name : string) phis entries unreach : pblock :=
  {| pb_name := name; pb_phis := phis; pb_entries := entries; pb_succs := []; pb_src := []; pb_instrs := []; pb_call := None;
     pb_live_in := []; pb_declared := []; pb_ids := []; pb_reach := [("c", (0, 0, true))]; pb_unreach := unreach; pb_count := []; pb_copies := []; pb_solve := [] |}.
Definition loop_blocks : pblocks :=
  [ ("top", pblk "top" [("p", ["c"; "q"]); ("q", ["r"; "p"]); ("s", ["c"; "c"])] ["pre"; "back"] ["p"; "q"]);
    ("back", pblk "back" [] ["top"] ["p"; "q"]);
    ("pre", pblk "pre" [("r", ["c"; "d"])] ["in1"; "in2"] ["r"]); ("in1", pblk "in1" [] [] []); ("in2", pblk "in2" [] [] []) ].
Example loop_repair : exists bs' joined w, fix_phi_values 10 ["p"; "s"] loop_blocks = Ok (bs', joined, w)
  /\ map (fun nb => (fst nb, pb_solve (snd nb), map fst (pb_copies (snd nb)))) bs'
     = [("top", ["p"; "q"], []); ("back", [], ["q"; "p"]); ("pre", ["r"], ["c"; "r"]); ("in1", [], ["c"]); ("in2", [], ["d"])]
  /\ joined = [("p", ["c"; "q"]); ("q", ["r"; "p"]); ("r", ["c"; "d"])].
Proof. eexists _, _, _. split; [vm_compute; reflexivity|]. split; reflexivity. Qed.
Example loop_hyps : single_phis loop_blocks /\ untouched loop_blocks.
Proof.
  split; [split; [|split]|].
  - cbn. repeat constructor; cbn; intuition discriminate.
  - intros x b L. apply lookup_In in L. cbn in L. repeat (destruct L as [L|L]; [injection L as <- <-; cbn; repeat constructor; cbn; intuition discriminate|]). destruct L.
  - intros x y v args args' (b & Lb & Pb) (c & Lc & Pc). apply lookup_In in Lb, Lc, Pb, Pc. cbn in Lb, Lc.
    repeat (destruct Lb as [Lb|Lb]; [injection Lb as <- <-; cbn in Pb; repeat (destruct Pb as [Pb|Pb]; [injection Pb as <- <-|]); try (destruct Pb; fail);
      repeat (destruct Lc as [Lc|Lc]; [injection Lc as <- <-; cbn in Pc; repeat (destruct Pc as [Pc|Pc]; [injection Pc as E <-; try discriminate E|]); try (destruct Pc; fail); try reflexivity|]); try (destruct Lc; fail)|]).
    destruct Lb.
  - intros x b L. apply lookup_In in L. cbn in L. repeat (destruct L as [L|L]; [injection L as <- <-; split; reflexivity|]). destruct L.
Qed.

(* --- which values cannot be reached --- *)
(** A value cannot be reached in the last block of a path of the dominator tree
    when it is declared in a block of the path, is live in all later blocks of
    the path, and none of these blocks has it in a position that can be duplicated. *)
Definition lost (p : list pblock) (v : string) : Prop :=
  exists p1 a p2, p = p1 ++ a :: p2 /\ In v (pb_declared a) /\ (forall c, In c p2 -> In v (pb_live_in c))
    /\ forall c, In c (a :: p2) -> ~ In v (map fst (pb_reach c)).

Lemma lost_snoc p b v : lost (p ++ [b]) v <-> ~ In v (map fst (pb_reach b)) /\ (In v (pb_declared b) \/ lost p v /\ In v (pb_live_in b)).
Proof.
  split.
  - intros (p1 & a & p2 & E & D & L & R). destruct (rev p2) as [|z q] eqn:Q.
    + assert (p2 = []) as -> by (rewrite <- (rev_involutive p2), Q; reflexivity). apply app_inj_tail in E as (-> & ->). split; [apply R; now left|now left].
    + assert (p2 = rev q ++ [z]) as -> by (rewrite <- (rev_involutive p2), Q; reflexivity).
      change (p1 ++ a :: rev q ++ [z]) with (p1 ++ (a :: rev q) ++ [z]) in E. rewrite app_assoc in E. apply app_inj_tail in E as (-> & ->).
      split; [apply R; right; apply in_app_iff; right; now left|]. right. split; [|apply L; apply in_app_iff; right; now left].
      exists p1, a, (rev q). split; [reflexivity|]. split; [exact D|]. split; intros c I; [apply L; apply in_app_iff; now left|].
      apply R. destruct I as [<-|I]; [now left|right; apply in_app_iff; now left].
  - intros (N & [D|((p1 & a & p2 & -> & D & L & R) & I)]).
    + exists p, b, []. split; [reflexivity|]. split; [exact D|]. split; [intros c []|intros c [<-|[]]; exact N].
    + exists p1, a, (p2 ++ [b]). split; [now rewrite <- app_assoc|]. split; [exact D|]. split; intros c K.
      * apply in_app_iff in K as [K|[<-|[]]]; auto.
      * destruct K as [<-|K]; [apply R; now left|]. apply in_app_iff in K as [K|[<-|[]]]; [apply R; now right|exact N].
Qed.

Lemma ppath_inv b ch l : ppath (PNode b ch) l -> l = [b] \/ exists t p, In t ch /\ ppath t p /\ l = b :: p.
Proof. intros H. inversion H; subst; [now left|right; eauto]. Qed.
Lemma construct_nodes depth : forall t previous t' q, construct_reachability depth previous t = Ok t' ->
  (forall v, In v previous <-> lost q v) ->
  forall p b, ppath t' (p ++ [b]) -> forall v, In v (pb_unreach b) <-> lost (q ++ p ++ [b]) v.
Proof.
  fix IH 1. intros (b0, ch) previous t' q H P p b PP v. cbn [construct_reachability] in H.
  destruct (reachability_from_greedy depth (pb_ids b0) (pb_src b0) (pb_instrs b0) (pb_call b0)) as [r|] eqn:R; cbn [bind] in H; [|discriminate].
  set (u := block_unreachability (map fst r) previous (pb_live_in b0) (pb_declared b0)) in *.
  match type of H with bind ?X _ = _ => destruct X as [ch'|] eqn:G end; cbn [bind] in H; [|discriminate]. injection H as <-.
  assert (Pu : forall v, In v u <-> lost (q ++ [with_reach b0 r u]) v).
  { intros x. rewrite lost_snoc. unfold u, block_unreachability. rewrite filter_In, in_app_iff, filter_In, negb_true_iff, mem_false, mem_In, (P x). cbn [pb_reach pb_declared pb_live_in with_reach]. tauto. }
  destruct (ppath_inv _ _ _ PP) as [E|(t1 & p1 & I1 & PP1 & E)].
  - destruct p as [|x p]; cbn in E; [|destruct p; discriminate]. injection E as ->. apply Pu.
  - destruct p as [|x p]; cbn in E; injection E as -> E; [subst p1; inversion PP1|subst p1].
    replace (q ++ (with_reach b0 r u :: p) ++ [b]) with ((q ++ [with_reach b0 r u]) ++ p ++ [b]) by (rewrite <- !app_assoc; reflexivity).
    clear PP R P. revert ch' G I1. induction ch as [|t ch IHch]; intros ch' G I1; [injection G as <-; destruct I1|].
    destruct (construct_reachability depth u t) as [t2|] eqn:C; cbn [bind] in G; [|discriminate].
    match type of G with bind ?X _ = _ => destruct X as [ch2|] eqn:G2 end; cbn [bind] in G; [|discriminate]. injection G as <-.
    destruct I1 as [->|I1]; [exact (IH t u t1 _ C Pu p b PP1 v)|exact (IHch ch2 eq_refl I1)].
Qed.

Theorem unreachable_values_exact : forall depth t t' p b, construct_reachability depth [] t = Ok t' -> ppath t' (p ++ [b]) ->
  forall v, In v (pb_unreach b) <-> lost (p ++ [b]) v.
Proof.
  intros depth t t' p b H PP v. apply (construct_nodes depth t [] t' [] H); [|exact PP].
  intros x. split; [intros []|intros (p1 & a & p2 & E & _); destruct p1; discriminate].
Qed.
Print Assumptions unreachable_values_exact.
(** A value declared in the first block, out of reach there and in the second. *)
Definition deep_tree : ptree :=
  PNode (gblock "start" [] [] ["next"] [] [opush "CALLVALUE_0" "x"; opush "CALLVALUE_1" "y"] ["x"; "y"; "z"] ["CALLVALUE_0"; "CALLVALUE_1"])
   [PNode (gblock "next" [] [] [] ["y"; "x"; "z"] [] [] []) []].
Example deep_values : exists t', construct_reachability 1 [] deep_tree = Ok t' /\ map (fun b => (pb_name b, map fst (pb_reach b), pb_unreach b)) (tree_blocks t')
  = [("start", ["x"; "y"], ["z"]); ("next", ["y"], ["z"])] /\ exists p b, ppath t' (p ++ [b]) /\ lost (p ++ [b]) "z".
Proof.
  eexists. split; [vm_compute; reflexivity|]. split; [reflexivity|]. eexists [_], _. split; [eapply pp_down; [now left|apply pp_here]|].
  eexists [], _, [_]. split; [reflexivity|]. split; [cbn; auto|]. split; intros c I; repeat (destruct I as [<-|I]; [cbn; intuition discriminate|]); destruct I.
Qed.
