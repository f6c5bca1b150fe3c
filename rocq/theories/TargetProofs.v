(** Proofs about the plan of the synthesizer: every operation that writes is
    pending once, in an order that was checked. *)
From Coq Require Import Permutation.
From Verif Require Import Base Lexical SymExecModel AsmModel FootprintSpec.
From Verif Require UtilModel UtilProps LevelProps GreedyTailModel GreedyTailProofs.
From Verif Require Import PermutModel SearchModel SearchSpec SearchProofs StoreSpec SearchOrder TargetModel.
Open Scope string_scope. Open Scope list_scope. Open Scope Z_scope.

(** ** Lists *)
Lemma insert_by_perm {A} le (x : A) l : Permutation (insert_by le x l) (x :: l).
Proof.
  induction l as [|y l IH]; cbn; [reflexivity|]. destruct (le x y); [reflexivity|].
  rewrite IH. apply perm_swap.
Qed.
Lemma sort_by_perm {A} le (l : list A) : Permutation (sort_by le l) l.
Proof. induction l as [|x l IH]; cbn; [reflexivity|]. rewrite insert_by_perm, IH. reflexivity. Qed.
Lemma filter_perm {A} (p : A -> bool) l l' : Permutation l l' -> Permutation (filter p l) (filter p l').
Proof.
  induction 1 as [|x l l' _ IH|x y l|l l1 l2 _ IH1 _ IH2]; cbn; auto.
  - destruct (p x); [constructor|]; exact IH.
  - destruct (p x), (p y); try reflexivity. apply perm_swap.
  - eapply Permutation_trans; eauto.
Qed.
Lemma filter_none {A} (p : A -> bool) l : (forall x, In x l -> p x = false) -> filter p l = [].
Proof.
  induction l as [|x l IH]; cbn; intros H; [reflexivity|]. rewrite H by auto. apply IH. auto.
Qed.
Lemma filter_all {A} (p : A -> bool) l : (forall x, In x l -> p x = true) -> filter p l = l.
Proof.
  induction l as [|x l IH]; cbn; intros H; [reflexivity|]. rewrite H by auto. f_equal. apply IH. auto.
Qed.
Lemma add_all_In l : forall s x, In x (add_all l s) <-> In x l \/ In x s.
Proof.
  unfold add_all. induction l as [|y l IH]; cbn; intros s x; [tauto|]. rewrite IH, LevelProps.set_add_In. intuition.
Qed.
Lemma set_add_NoDup x s : NoDup s -> NoDup (UtilModel.set_add x s).
Proof.
  unfold UtilModel.set_add. intros N. destruct (mem x s) eqn:M; [exact N|].
  apply (Permutation_NoDup (l := x :: s)); [apply Permutation_cons_append|]. constructor; [|exact N].
  intros H. apply mem_In in H. congruence.
Qed.
Lemma add_all_NoDup l : forall s, NoDup s -> NoDup (add_all l s).
Proof. unfold add_all. induction l as [|y l IH]; cbn; intros s N; [exact N|]. apply IH, set_add_NoDup, N. Qed.

(** ** Dictionaries of positions *)
Definition here (k : Z) (d : list (Z * list string)) : list string := match at_pos k d with Some l => l | None => [] end.
Lemma at_pos_In k d l : at_pos k d = Some l -> In (k, l) d.
Proof.
  unfold at_pos. destruct (find _ d) as [[k' l']|] eqn:F; [|discriminate]. intros E. injection E as <-. apply find_some in F as [F K].
  cbn in *. apply Z.eqb_eq in K. subst k'. exact F.
Qed.
Lemma at_pos_cons k k' l d : at_pos k ((k', l) :: d) = if k' =? k then Some l else at_pos k d.
Proof. unfold at_pos. cbn. destruct (k' =? k); reflexivity. Qed.
Lemma at_pos_key k d : at_pos k d <> None <-> In k (map fst d).
Proof.
  induction d as [|[k' l] d IH]; [cbn; tauto|]. rewrite at_pos_cons. cbn [map fst In]. destruct (Z.eqb_spec k' k) as [->|N].
  - split; [auto|discriminate].
  - rewrite IH. split; [auto|]. intros [Q|Q]; [congruence|exact Q].
Qed.
Lemma at_pos_unique k l d : NoDup (map fst d) -> In (k, l) d -> at_pos k d = Some l.
Proof.
  induction d as [|[k' l'] d IH]; [intros _ []|]. cbn [map fst]. intros N H. inversion N as [|? ? Nk Nd]; subst. rewrite at_pos_cons.
  destruct H as [E|H]; [injection E as -> ->; rewrite Z.eqb_refl; reflexivity|]. destruct (Z.eqb_spec k' k) as [->|_]; [|auto].
  exfalso. apply Nk. apply in_map_iff. exists (k, l). auto.
Qed.
Lemma put_pos_keys k v d x : In x (map fst (put_pos k v d)) <-> x = k \/ In x (map fst d).
Proof.
  induction d as [|[k' l] d IH]; cbn; [intuition|]. destruct (Z.eqb_spec k' k) as [->|N]; cbn; [intuition|]. rewrite IH. intuition.
Qed.
Lemma put_pos_NoDup k v d : NoDup (map fst d) -> NoDup (map fst (put_pos k v d)).
Proof.
  induction d as [|[k' l] d IH]; cbn; intros N; [constructor; [intros []|constructor]|].
  inversion N as [|? ? Nk Nd]; subst. destruct (Z.eqb_spec k' k) as [->|D]; cbn; [exact N|]. constructor; [|auto].
  rewrite put_pos_keys. intros [Q|Q]; [congruence|contradiction].
Qed.
Lemma put_pos_perm k v d : forall o, Permutation v (o :: here k d) -> Permutation (flat_map snd (put_pos k v d)) (o :: flat_map snd d).
Proof.
  induction d as [|[k' l] d IH]; cbn [put_pos flat_map snd]; intros o P.
  - rewrite app_nil_r. exact P.
  - unfold here in *. rewrite at_pos_cons in P. destruct (k' =? k); cbn [flat_map snd].
    + rewrite P. reflexivity.
    + rewrite (IH _ P). apply Permutation_sym, Permutation_middle.
Qed.
Lemma put_pos_In k v d k' l : NoDup (map fst d) -> In (k', l) (put_pos k v d) -> (k' = k /\ l = v) \/ (k' <> k /\ In (k', l) d).
Proof.
  induction d as [|[k1 l1] d IH]; cbn; intros N H.
  - destruct H as [E|[]]. injection E as -> ->. auto.
  - inversion N as [|? ? Nk Nd]; subst. destruct (Z.eqb_spec k1 k) as [->|D]; cbn in H; destruct H as [E|H].
    + injection E as <- <-. auto.
    + right. split; [|auto]. intros ->. apply Nk. apply in_map_iff. exists (k, l). auto.
    + injection E as <- <-. auto.
    + destruct (IH Nd H) as [Q|[Q Q']]; auto.
Qed.

(** ** Where the operations are placed *)
Section Place.
Context (deps : list (string * string)) (level : string -> Z) (M : Z).
Definition spot (o : string) : Z := if is_write o then level o else max_pos o M deps level.
Definition holds (d : list (Z * list string)) (l : list string) : Prop :=
  NoDup (map fst d) /\ Permutation (flat_map snd d) l /\ (forall k v x, In (k, v) d -> In x v -> k = spot x)
  /\ (forall k v, In (k, v) d -> v <> []).
Lemma holds_put k v d l o : holds d l -> k = spot o -> Permutation v (o :: here k d) -> holds (put_pos k v d) (o :: l).
Proof.
  intros (N & P & S & F) K V. split; [apply put_pos_NoDup; exact N|]. split; [rewrite (put_pos_perm _ _ _ _ V), P; reflexivity|]. split.
  2: { intros k' v' H. apply put_pos_In in H as [[-> ->]|[_ H]]; [|eapply F; eauto|exact N]. intros ->. apply Permutation_nil in V. discriminate. }
  intros k' v' x H Hx. apply put_pos_In in H as [[-> ->]|[_ H]]; [| |exact N].
  - apply (Permutation_in _ V) in Hx as [<-|Hx]; [exact K|]. unfold here in Hx. destruct (at_pos k d) as [l0|] eqn:A; [|destruct Hx].
    apply at_pos_In in A. eapply S; eauto.
  - eapply S; eauto.
Qed.
Lemma place_ops ops : forall pl ps wl ws, holds pl wl -> holds ps ws ->
  let r := fold_left (place_op deps level M) ops (pl, ps) in
  exists ul us, holds (fst r) ul /\ holds (snd r) us
    /\ Permutation ul (filter (fun o => negb (is_write o)) ops ++ wl) /\ Permutation us (filter is_write ops ++ ws).
Proof.
  induction ops as [|o ops IH]; cbn [fold_left filter]; intros pl ps wl ws HL HS.
  - exists wl, ws. auto.
  - cbv zeta in *. destruct (is_write o) eqn:W; cbn [negb].
    + replace (place_op deps level M (pl, ps) o)
        with (pl, put_pos (level o) (match at_pos (level o) ps with None => [o] | Some l => [o] ++ l end) ps)
        by (unfold place_op; rewrite W; reflexivity).
      destruct (IH pl (put_pos (level o) (match at_pos (level o) ps with None => [o] | Some l => [o] ++ l end) ps) wl (o :: ws)) as (ul & us & A & B & C & D).
      * exact HL.
      * apply holds_put; [exact HS|unfold spot; rewrite W; reflexivity|]. unfold here. destruct (at_pos (level o) ps); reflexivity.
      * exists ul, us. split; [exact A|]. split; [exact B|]. split; [exact C|]. rewrite D. apply Permutation_sym, Permutation_middle.
    + set (k := max_pos o M deps level). replace (place_op deps level M (pl, ps) o)
        with (put_pos k (match at_pos k pl with None => [o] | Some l => l ++ [o] end) pl, ps)
        by (unfold place_op; rewrite W; reflexivity).
      destruct (IH (put_pos k (match at_pos k pl with None => [o] | Some l => l ++ [o] end) pl) ps (o :: wl) ws) as (ul & us & A & B & C & D).
      * apply holds_put; [exact HL|unfold spot; rewrite W; reflexivity|]. unfold here. destruct (at_pos k pl); [apply Permutation_sym, Permutation_cons_append|reflexivity].
      * exact HS.
      * exists ul, us. split; [exact A|]. split; [exact B|]. split; [|exact D]. rewrite C. apply Permutation_sym, Permutation_middle.
Qed.
Lemma max_pos_le o t : max_pos o t deps level <= t.
Proof.
  unfold max_pos. revert t. induction deps as [|[a b] l IH]; cbn; intros t; [lia|]. destruct (String.eqb o a); [|apply IH].
  etransitivity; [apply IH|]. lia.
Qed.
Lemma max_pos_succ o b : forall t, In (o, b) deps -> max_pos o t deps level <= level b - 1.
Proof.
  unfold max_pos. induction deps as [|[a c] l IH]; cbn; intros t; [intros []|]. intros [E|H]; [|apply IH; exact H].
  injection E as -> ->. rewrite String.eqb_refl.
  assert (Q : forall l t, fold_left (fun m p => if String.eqb o (fst p) then Z.min m (level (snd p) - 1) else m) l t <= t).
  { clear. induction l as [|[a c] l IH]; cbn; intros t; [lia|]. destruct (String.eqb o a); [|apply IH]. etransitivity; [apply IH|]. lia. }
  etransitivity; [apply Q|]. lia.
Qed.
Lemma max_pos_ge o c : forall t, c <= t -> (forall b, In (o, b) deps -> c <= level b - 1) -> c <= max_pos o t deps level.
Proof.
  unfold max_pos. induction deps as [|[a d] l IH]; cbn; intros t T H; [exact T|]. destruct (String.eqb_spec o a) as [->|]; apply IH; auto.
  specialize (H d (or_introl eq_refl)). lia.
Qed.
End Place.

(** ** Joining positions *)
Fixpoint span (i : Z) (m : nat) : list Z := match m with O => [] | S m' => i :: span (i + 1) m' end.
Lemma span_In m : forall i k, In k (span i m) <-> i <= k < i + Z.of_nat m.
Proof. induction m as [|m IH]; intros i k; [cbn; lia|]. cbn [span In]. rewrite IH. lia. Qed.
Lemma span_NoDup m : forall i, NoDup (span i m).
Proof. induction m as [|m IH]; cbn; intros i; constructor; [|apply IH]. rewrite span_In. lia. Qed.
Lemma span_length m : forall i, length (span i m) = m.
Proof. induction m as [|m IH]; cbn; intros i; [reflexivity|]. rewrite IH. reflexivity. Qed.
Lemma span_skip (f : Z -> list string) d : forall m i, (forall k, i <= k < i + Z.of_nat d -> f k = []) ->
  flat_map f (span i m) = flat_map f (span (i + Z.of_nat d) (m - d)).
Proof.
  induction d as [|d IH]; intros m i H; [rewrite Z.add_0_r, Nat.sub_0_r; reflexivity|]. destruct m as [|m]; [reflexivity|].
  cbn [span flat_map]. rewrite H by lia. cbn [app Nat.sub]. rewrite IH by (intros k K; apply H; lia). f_equal. f_equal. lia.
Qed.

Lemma join_run_to poslops possops : forall n i lops lops' i', join_run n i poslops possops lops = (lops', i') ->
  exists d, i' = i + Z.of_nat d /\ (forall k, i <= k < i' -> at_pos k possops = None)
    /\ forall x, In x lops' -> In x lops \/ In x (flat_map snd poslops).
Proof.
  induction n as [|n IH]; cbn [join_run]; intros i lops lops' i' E.
  - injection E as <- <-. exists 0%nat. split; [lia|]. split; [intros; lia|auto].
  - destruct (at_pos i poslops) as [l|] eqn:L, (at_pos i possops) eqn:S;
      try (injection E as <- <-; exists 0%nat; split; [lia|]; split; [intros; lia|auto]; fail).
    apply IH in E as (d & -> & A & B). exists (Datatypes.S d). split; [lia|]. split.
    + intros k K. destruct (Z.eq_dec k i) as [->|N]; [exact S|apply A; lia].
    + intros x Hx. apply B in Hx as [Hx|Hx]; [|auto]. apply in_app_iff in Hx as [Hx|Hx]; [auto|]. right.
      apply in_flat_map. exists (i, l). split; [apply at_pos_In; exact L|exact Hx].
Qed.
Lemma join_loop_stores poslops possops : forall n i j nl ns m, (m <= n)%nat ->
  (forall k, i <= k < i + Z.of_nat m -> at_pos k poslops <> None \/ at_pos k possops <> None) ->
  (forall k, i + Z.of_nat m <= k -> at_pos k possops = None) ->
  flat_map snd (snd (join_loop n i j poslops possops nl ns)) = flat_map snd ns ++ flat_map (fun k => here k possops) (span i m).
Proof.
  induction n as [|n IH]; intros i j nl ns m L Oc Em.
  - replace m with 0%nat by lia. cbn. rewrite app_nil_r. reflexivity.
  - cbn [join_loop].
    assert (G : forall i' j' nl', (exists d, i' = i + 1 + Z.of_nat d /\ forall k, i + 1 <= k < i' -> at_pos k possops = None) ->
      flat_map snd (snd (join_loop n i' j' poslops possops nl' (match at_pos i possops with Some l => ns ++ [(j, l)] | None => ns end)))
      = flat_map snd ns ++ flat_map (fun k => here k possops) (span i m)).
    { intros i' j' nl' (d & -> & Hd). rewrite (IH _ _ _ _ (m - 1 - d)%nat).
      - assert (Q : flat_map snd (match at_pos i possops with Some l => ns ++ [(j, l)] | None => ns end) = flat_map snd ns ++ here i possops).
        { unfold here. destruct (at_pos i possops); [|rewrite app_nil_r; reflexivity]. rewrite flat_map_app. cbn. rewrite app_nil_r. reflexivity. }
        rewrite Q, <- app_assoc. f_equal. destruct m as [|m].
        + cbn. unfold here. rewrite (Em i) by lia. reflexivity.
        + cbn [span flat_map]. f_equal. rewrite (span_skip _ d m (i + 1)); [|intros k K; unfold here; rewrite Hd by lia; reflexivity].
          f_equal. f_equal. lia.
      - lia.
      - intros k K. apply Oc. lia.
      - intros k K. destruct (Z_lt_le_dec k (i + Z.of_nat m)); [|apply Em; lia]. apply Hd. lia. }
    destruct (at_pos i poslops) as [l|] eqn:A.
    + destruct (join_run (length poslops) (i + 1) poslops possops l) as [lops i'] eqn:R.
      destruct (join_run_to _ _ _ _ _ _ _ R) as (d & Ed & Hd & _).
      assert (X : exists d, i' = i + 1 + Z.of_nat d /\ forall k, i + 1 <= k < i' -> at_pos k possops = None) by eauto.
      destruct (at_pos i possops); apply (G i' (j + 1) (nl ++ [(j, lops)]) X).
    + destruct (at_pos i possops) as [l|] eqn:B.
      * apply (G (i + 1) (j + 1) nl). exists 0%nat. split; [lia|]. intros; lia.
      * cbn [snd]. rewrite (span_skip _ m) by (intros k K; unfold here; rewrite Em; [reflexivity|]; 
          destruct m as [|m]; [lia|destruct (Oc i) as [Q|Q]; [lia|congruence|congruence]]).
        rewrite Nat.sub_diag. cbn. rewrite app_nil_r. reflexivity.
Qed.
Lemma join_loop_loads poslops possops x : forall n i j nl ns,
  In x (flat_map snd (fst (join_loop n i j poslops possops nl ns))) -> In x (flat_map snd nl) \/ In x (flat_map snd poslops).
Proof.
  induction n as [|n IH]; intros i j nl ns H; [auto|]. cbn [join_loop] in H.
  assert (G : forall ns' l, at_pos i poslops = Some l ->
    In x (flat_map snd (fst (let '(lops, i') := join_run (length poslops) (i + 1) poslops possops l in
      join_loop n i' (j + 1) poslops possops (nl ++ [(j, lops)]) ns'))) -> In x (flat_map snd nl) \/ In x (flat_map snd poslops)).
  { intros ns' l A Q. destruct (join_run _ _ _ _ l) as [lops i'] eqn:R. destruct (join_run_to _ _ _ _ _ _ _ R) as (d & _ & _ & B).
    apply IH in Q as [Q|Q]; [|auto]. rewrite flat_map_app in Q. apply in_app_iff in Q as [Q|Q]; [auto|]. cbn in Q. rewrite app_nil_r in Q.
    apply B in Q as [Q|Q]; [|auto]. right. apply in_flat_map. exists (i, l). split; [apply at_pos_In; exact A|exact Q]. }
  destruct (at_pos i poslops) as [l|] eqn:A, (at_pos i possops) as [l'|] eqn:B; try (eapply G; [reflexivity|exact H]); [|auto].
  apply IH in H. exact H.
Qed.
Lemma here_perm : forall m i (d : list (Z * list string)), NoDup (map fst d) -> (forall k, In k (map fst d) -> i <= k < i + Z.of_nat m) ->
  Permutation (flat_map (fun k => here k d) (span i m)) (flat_map snd d).
Proof.
  intros m i d. revert m i. induction d as [|[k l] d IH]; intros m i N H.
  - replace (flat_map (fun k => here k []) (span i m)) with (@nil string); [reflexivity|]. clear. revert i. induction m as [|m IH]; intros i; [reflexivity|exact (IH (i + 1))].
  - cbn [map fst flat_map snd] in *. inversion N as [|? ? Nk Nd]; subst. rewrite <- (IH m i Nd) by (intros k' K; apply H; right; exact K).
    assert (K : In k (span i m)) by (apply span_In, H; left; reflexivity). pose proof (span_NoDup m i) as NS.
    apply in_split in K as (a & b & E). rewrite E in *. rewrite !flat_map_app. cbn [flat_map].
    assert (Q1 : forall c, ~ In k c -> flat_map (fun k0 => here k0 ((k, l) :: d)) c = flat_map (fun k0 => here k0 d) c).
    { clear. induction c as [|y c IH]; intros H; [reflexivity|]. cbn [flat_map]. rewrite IH by (intros Q; apply H; right; exact Q).
      f_equal. unfold here. rewrite at_pos_cons. destruct (Z.eqb_spec k y) as [->|]; [exfalso; apply H; left; reflexivity|reflexivity]. }
    apply NoDup_remove in NS as [_ NS]. rewrite in_app_iff in NS. rewrite !Q1 by tauto.
    assert (Q2 : here k ((k, l) :: d) = l) by (unfold here; rewrite at_pos_cons, Z.eqb_refl; reflexivity).
    assert (Q3 : here k d = []). { unfold here. destruct (at_pos k d) eqn:A; [|reflexivity]. exfalso. apply Nk, at_pos_key. congruence. }
    rewrite Q2, Q3. cbn [app]. rewrite !app_assoc. apply Permutation_app_tail. apply Permutation_app_comm.
Qed.

(** ** The order *)
Definition writes (l : list string) : list string := filter is_write l.
Lemma writes_app a b : writes (a ++ b) = writes a ++ writes b.
Proof. apply filter_app. Qed.
Lemma writes_none l : values l -> writes l = [].
Proof. intros V. apply filter_none. exact V. Qed.

Lemma put_loads_writes loads : values loads -> forall acc, writes (fst (put_loads loads acc)) = writes (fst acc).
Proof.
  unfold put_loads. induction loads as [|x l IH]; cbn; intros V acc; [reflexivity|]. rewrite IH by (intros y Hy; apply V; right; exact Hy).
  destruct (mem x (snd acc)); [reflexivity|]. cbn [fst]. rewrite writes_app, (writes_none [x]); [apply app_nil_r|]. intros y [<-|[]]. apply V. left. reflexivity.
Qed.
Lemma put_stores_writes deps nostores : values nostores -> forall sos opsord, (forall x, In x sos -> is_write x = true) ->
  writes (fst (put_stores deps nostores sos opsord)) = writes opsord ++ sos.
Proof.
  intros V sos opsord. unfold put_stores.
  assert (G : forall sos acc, (forall x, In x sos -> is_write x = true) ->
    writes (fst (fold_left (fun acc so => let acc := put_loads (loads_before deps nostores so) acc in (fst acc ++ [so], snd acc)) sos acc)) = writes (fst acc) ++ sos).
  { clear sos opsord. induction sos as [|so sos IH]; intros acc H; cbn [fold_left]; [rewrite app_nil_r; reflexivity|].
    rewrite IH by (intros x Hx; apply H; right; exact Hx). cbv zeta. cbn [fst]. rewrite writes_app, put_loads_writes.
    - rewrite <- app_assoc. f_equal. change (so :: sos) with ([so] ++ sos). f_equal. apply filter_all. intros x [<-|[]]. apply H. left. reflexivity.
    - intros x Hx. apply filter_In in Hx as [Hx _]. auto. }
  intros H. apply (G sos (opsord, [])). exact H.
Qed.
Lemma map_result_fst {A B} (f : A -> result (A * B)) l : forall r, (forall x y, f x = Ok y -> fst y = x) -> map_result f l = Ok r -> map fst r = l.
Proof.
  induction l as [|x l IH]; cbn; intros r F E; [injection E as <-; reflexivity|]. apply bind_ok in E as (y & Y & E). apply bind_ok in E as (ys & YS & E).
  injection E as <-. cbn. rewrite (F _ _ Y), (IH _ F YS). reflexivity.
Qed.
Definition loads_only (d : list (Z * list string)) : Prop := values (flat_map snd d).
Lemma order_step_writes tbl deps opsord cur pl sop opsord' cur' pl' : order_step tbl deps (opsord, cur, pl) sop = Ok (opsord', cur', pl') ->
  loads_only pl -> (forall x, In x (snd sop) -> is_write x = true) ->
  Permutation (writes opsord') (writes opsord ++ snd sop) /\ loads_only pl'.
Proof.
  unfold order_step. intros E V Wr. destruct (fst sop =? cur).
  - injection E as <- _ <-. split; [|exact V]. rewrite writes_app. unfold writes at 2. rewrite filter_all by exact Wr. reflexivity.
  - destruct pl as [|[p nostores] rest]; [discriminate|]. apply bind_ok in E as (u & _ & E). apply bind_ok in E as (u1 & _ & E).
    apply bind_ok in E as (ldeps & L & E). injection E as <- _ <-. unfold loads_only in *. cbn in V.
    split; [|intros x Hx; apply V, in_app_iff; right; exact Hx].
    set (sos := map fst _).
    assert (P : Permutation sos (snd sop)).
    { unfold sos. rewrite !sort_by_perm. apply map_result_fst in L; [rewrite L; reflexivity|]. intros x y Q. apply bind_ok in Q as (z & _ & Q). injection Q as <-. reflexivity. }
    rewrite put_stores_writes; [apply Permutation_app_head; exact P| |].
    + intros x Hx. apply V, in_app_iff. left. exact Hx.
    + intros x Hx. apply Wr. eapply Permutation_in; eauto.
Qed.
Lemma order_writes tbl deps : forall ps acc r, for_each (order_step tbl deps) ps acc = Ok r ->
  loads_only (snd acc) -> (forall x, In x (flat_map snd ps) -> is_write x = true) ->
  Permutation (writes (fst (fst r))) (writes (fst (fst acc)) ++ flat_map snd ps) /\ loads_only (snd r).
Proof.
  induction ps as [|sop ps IH]; cbn [for_each flat_map]; intros [[o c] pl] r E V Wr; [injection E as <-; cbn; rewrite app_nil_r; auto|].
  apply bind_ok in E as ([[o1 c1] pl1] & E1 & E). apply order_step_writes in E1 as [P1 V1]; [|exact V|intros x Hx; apply Wr, in_app_iff; auto].
  destruct (IH _ _ E V1) as [P2 V2]; [intros x Hx; apply Wr, in_app_iff; auto|]. split; [|exact V2]. cbn [fst snd] in *.
  rewrite P2, P1, <- app_assoc. reflexivity.
Qed.

Lemma fold_max_ge (f : string -> Z) l : forall t, t <= fold_left (fun m o => Z.max m (f o)) l t
  /\ forall x, In x l -> f x <= fold_left (fun m o => Z.max m (f o)) l t.
Proof.
  induction l as [|y l IH]; cbn; intros t; [split; [lia|intros ? []]|]. destruct (IH (Z.max t (f y))) as [A B]. split; [lia|].
  intros x [<-|H]; [lia|auto].
Qed.
Lemma fold_max_hit (f : string -> Z) l : forall t, fold_left (fun m o => Z.max m (f o)) l t = t
  \/ exists x, In x l /\ f x = fold_left (fun m o => Z.max m (f o)) l t.
Proof.
  induction l as [|y l IH]; cbn; intros t; [auto|]. destruct (IH (Z.max t (f y))) as [E|(x & H & E)].
  - destruct (Z.max_spec t (f y)) as [[_ Q]|[_ Q]]; rewrite Q in *; [|rewrite E; auto]. right. exists y. auto.
  - right. exists x. auto.
Qed.

(** Every operation that writes is in the order, once; the others at the end do not write. *)
Lemma sort_with_deps_writes elems deps tbl order final : sort_with_deps elems deps tbl = Ok (order, final) ->
  NoDup (writes order) /\ values final /\ (forall x, is_write x = true -> In x elems -> In x order)
  /\ (forall x, is_write x = true -> In x order -> In x elems \/ LevelProps.endpoint deps x).
Proof.
  unfold sort_with_deps. intros E. apply bind_ok in E as (m & Em & E).
  set (raw := add_all (flat_map (fun p => [fst p; snd p]) deps ++ elems) []) in *.
  set (ops := sort_by str_le raw) in *.
  set (level := fun o => match UtilModel.lookup o m with Some n => Z.of_nat n | None => 0 end) in *.
  set (M := fold_left (fun m o => Z.max m (level o)) ops 0) in *.
  change (fold_left _ ops 0) with M in E.
  assert (LV : LevelProps.levels deps (fun k => UtilModel.lookup k m)).
  { unfold UtilModel.get_min_deps_map, UtilModel.get_min_deps_map_fuel in Em.
    destruct (LevelProps.levels_loop_inv deps _ _ _ _ _ (LevelProps.initial_inv deps) Em) as [c I]. eapply LevelProps.inv_levels; exact I. }
  assert (Raw : forall x, In x ops <-> In x elems \/ LevelProps.endpoint deps x).
  { intros x. unfold ops. rewrite (Permutation_in' eq_refl (sort_by_perm str_le raw)). unfold raw. rewrite add_all_In, in_app_iff, in_flat_map.
    unfold LevelProps.endpoint. split.
    - intros [[([a b] & H & Hx)|H]|[]]; [|auto]. cbn in Hx. right. exists a, b. intuition.
    - intros [H|(a & b & H & Hx)]; [auto|]. left. left. exists (a, b). split; [exact H|]. cbn. intuition. }
  assert (ND : NoDup ops). { eapply Permutation_NoDup; [apply Permutation_sym, sort_by_perm|]. apply add_all_NoDup. constructor. }
  assert (L0 : forall x, 0 <= level x) by (intros x; unfold level; destruct (UtilModel.lookup x m); lia).
  assert (LM : forall x, In x ops -> level x <= M) by (intros x Hx; apply (fold_max_ge level ops 0); exact Hx).
  assert (M0 : 0 <= M) by (apply (fold_max_ge level ops 0)).
  assert (Up : forall a b, In (a, b) deps -> level a < level b).
  { intros a b H. assert (Ea : LevelProps.endpoint deps a) by (exists a, b; auto). assert (Eb : LevelProps.endpoint deps b) by (exists a, b; auto).
    apply (LevelProps.lv_dom _ _ LV) in Ea, Eb. unfold level. destruct (UtilModel.lookup a m) as [la|] eqn:A; [|congruence].
    destruct (UtilModel.lookup b m) as [lb|] eqn:B; [|congruence]. apply (LevelProps.lv_above _ _ LV a b la lb H A) in B. lia. }
  assert (Down : forall y k, level y = k + 1 -> 0 <= k -> exists a, In (a, y) deps /\ level a = k).
  { intros y k Hy Hk. unfold level in Hy. destruct (UtilModel.lookup y m) as [ly|] eqn:Y; [|lia]. destruct ly as [|ly]; [lia|].
    destruct (LevelProps.lv_tight _ _ LV y ly Y) as (a & A & La). exists a. split; [exact A|]. unfold level. rewrite La. lia. }
  assert (Ends : forall a b, In (a, b) deps -> In a ops /\ In b ops).
  { intros a b H. split; apply Raw; right; exists a, b; auto. }
  destruct (place_ops deps level M ops [] [] [] []) as (ul & us & HL & HS & PL & PS);
    [split; [constructor|split; [reflexivity|split; [intros ? ? ? []|intros ? ? []]]]..|].
  destruct (fold_left (place_op deps level M) ops ([], [])) as [poslops possops]. cbn [fst snd] in *. rewrite app_nil_r in PL, PS.
  destruct HL as (NL & PL' & SL & FL). destruct HS as (NS & PS' & SS & FS).
  assert (InL : forall x, In x ops -> is_write x = false -> at_pos (spot deps level M x) poslops <> None).
  { intros x Hx Wx. apply at_pos_key. assert (H : In x (flat_map snd poslops)).
    { eapply Permutation_in; [apply Permutation_sym; exact PL'|]. eapply Permutation_in; [apply Permutation_sym; exact PL|]. apply filter_In. rewrite Wx. auto. }
    apply in_flat_map in H as ([k v] & H & Hv). cbn in Hv. rewrite <- (SL _ _ _ H Hv). apply in_map_iff. exists (k, v). auto. }
  assert (InS : forall x, In x ops -> is_write x = true -> at_pos (spot deps level M x) possops <> None).
  { intros x Hx Wx. apply at_pos_key. assert (H : In x (flat_map snd possops)).
    { eapply Permutation_in; [apply Permutation_sym; exact PS'|]. eapply Permutation_in; [apply Permutation_sym; exact PS|]. apply filter_In. rewrite Wx. auto. }
    apply in_flat_map in H as ([k v] & H & Hv). cbn in Hv. rewrite <- (SS _ _ _ H Hv). apply in_map_iff. exists (k, v). auto. }
  assert (Wpos : forall x, In x (flat_map snd possops) -> is_write x = true /\ In x ops).
  { intros x Hx. apply (Permutation_in _ PS') in Hx. apply (Permutation_in _ PS) in Hx. apply filter_In in Hx. tauto. }
  assert (Key : forall k, In k (map fst possops) -> 0 <= k <= M).
  { intros k Hk. apply in_map_iff in Hk as ([k' v] & <- & Hk). cbn. destruct v as [|x v]; [exfalso; eapply FS; eauto|].
    assert (Hx : In x (flat_map snd possops)) by (apply in_flat_map; exists (k', x :: v); split; [exact Hk|left; reflexivity]).
    destruct (Wpos _ Hx) as [Wx Ox]. rewrite (SS _ _ x Hk (or_introl eq_refl)). unfold spot. rewrite Wx. split; [apply L0|apply LM; exact Ox]. }
  assert (KeyL : forall k, In k (map fst poslops) -> 0 <= k <= M).
  { intros k Hk. apply in_map_iff in Hk as ([k' v] & <- & Hk). cbn. destruct v as [|x v]; [exfalso; eapply FL; eauto|].
    assert (Hx : In x (flat_map snd poslops)) by (apply in_flat_map; exists (k', x :: v); split; [exact Hk|left; reflexivity]).
    apply (Permutation_in _ PL') in Hx. apply (Permutation_in _ PL) in Hx. apply filter_In in Hx as [Ox Wx]. apply negb_true_iff in Wx.
    rewrite (SL _ _ x Hk (or_introl eq_refl)). unfold spot. rewrite Wx. split; [|apply max_pos_le].
    apply max_pos_ge; [exact M0|]. intros b H. specialize (Up _ _ H). specialize (L0 x). lia. }
  assert (Values : values (flat_map snd poslops)).
  { intros x Hx. apply (Permutation_in _ PL') in Hx. apply (Permutation_in _ PL) in Hx. apply filter_In in Hx as [_ Wx]. apply negb_true_iff. exact Wx. }
  assert (At : ops <> [] -> forall d, Z.of_nat d <= M -> exists x, In x ops /\ level x = M - Z.of_nat d).
  { intros NE. induction d as [|d IH]; intros Hd.
    - rewrite Z.sub_0_r. destruct (fold_max_hit level ops 0) as [Q|(x & Hx & Q)]; [|eauto]. fold M in Q.
      destruct ops as [|x l]; [congruence|]. exists x. split; [left; reflexivity|]. specialize (LM x (or_introl eq_refl)). specialize (L0 x). lia.
    - destruct IH as (y & Hy & Ly); [lia|]. destruct (Down y (M - Z.of_nat (Datatypes.S d))) as (a & A & La); [lia|lia|].
      exists a. split; [apply (Ends _ _ A)|exact La]. }
  assert (Occ : ops <> [] -> forall k, 0 <= k <= M -> at_pos k poslops <> None \/ at_pos k possops <> None).
  { intros NE k Hk. assert (Q : exists x, In x ops /\ spot deps level M x = k).
    { destruct (Z.eq_dec k M) as [->|Nk].
      - destruct (At NE 0%nat) as (x & Hx & Lx); [lia|]. exists x. split; [exact Hx|]. unfold spot. destruct (is_write x); [lia|].
        apply Z.le_antisymm; [apply max_pos_le|]. apply max_pos_ge; [lia|]. intros b H. specialize (Up _ _ H). destruct (Ends _ _ H) as [_ Hb].
        specialize (LM _ Hb). lia.
      - destruct (At NE (Z.to_nat (M - (k + 1)))) as (y & Hy & Ly); [lia|]. destruct (Down y k) as (a & A & La); [lia|lia|].
        exists a. split; [apply (Ends _ _ A)|]. unfold spot. destruct (is_write a); [exact La|].
        apply Z.le_antisymm.
        + pose proof (max_pos_succ deps level a y M A). lia.
        + apply max_pos_ge; [lia|]. intros b H. specialize (Up _ _ H). lia. }
    destruct Q as (x & Hx & <-). destruct (is_write x) eqn:Wx; [right|left]; auto. }
  assert (Join : Permutation (flat_map snd (snd (join_positions poslops possops))) (flat_map snd possops)).
  { destruct (Nat.eq_dec (length ops) 0) as [Z0|Z0].
    - apply length_zero_iff_nil in Z0. rewrite Z0 in PS. cbn in PS. apply Permutation_sym, Permutation_nil in PS. subst us.
      apply Permutation_sym, Permutation_nil in PS'. destruct possops as [|[k v] d]; [|exfalso; apply (FS k v); [left; reflexivity|]; cbn in PS'; apply app_eq_nil in PS'; tauto].
      unfold join_positions. rewrite (join_loop_stores poslops [] _ 0 0 [] [] 0%nat); [reflexivity|lia|intros; lia|reflexivity].
    - assert (NE : ops <> []) by (intros Q; rewrite Q in Z0; apply Z0; reflexivity).
      unfold join_positions. rewrite (join_loop_stores poslops possops _ 0 0 [] [] (Datatypes.S (Z.to_nat M))).
      + cbn [flat_map app]. apply here_perm; [exact NS|]. intros k Hk. specialize (Key _ Hk). lia.
      + assert (Q : incl (span 0 (Datatypes.S (Z.to_nat M))) (map fst poslops ++ map fst possops)).
        { intros k Hk. apply span_In in Hk. apply in_app_iff. rewrite <- !at_pos_key. apply (Occ NE). lia. }
        apply NoDup_incl_length in Q; [|apply span_NoDup]. rewrite span_length, app_length, !map_length in Q. lia.
      + intros k Hk. apply (Occ NE). lia.
      + intros k Hk. destruct (at_pos k possops) eqn:A; [|reflexivity]. exfalso.
        assert (Q : In k (map fst possops)) by (apply at_pos_key; congruence). specialize (Key _ Q). lia. }
  assert (JL : values (flat_map snd (fst (join_positions poslops possops)))).
  { intros x Hx. unfold join_positions in Hx. apply join_loop_loads in Hx as [[]|Hx]. apply Values. exact Hx. }
  destruct (join_positions poslops possops) as [pl ps]. cbn [fst snd] in *.
  apply bind_ok in E as ([[opsord c] rest] & E & E'). injection E' as <- <-.
  assert (FP : forall d : list (Z * list string), Permutation (flat_map snd (sort_by (fun x y => fst x <=? fst y) d)) (flat_map snd d)).
  { intros d. apply Permutation_flat_map, sort_by_perm. }
  apply order_writes in E as [P V].
  - cbn [fst snd app writes filter] in P. rewrite FP, Join, PS', PS in P. split; [|split; [exact V|]].
    + eapply Permutation_NoDup; [apply Permutation_sym; exact P|]. apply NoDup_filter. exact ND.
    + split.
      * intros x Wx Hx. assert (Q : In x (writes opsord)); [|apply filter_In in Q; tauto].
        eapply Permutation_in; [apply Permutation_sym; exact P|]. apply filter_In. split; [apply Raw; auto|exact Wx].
      * intros x Wx Hx. apply Raw. assert (Q : In x (writes opsord)) by (apply filter_In; auto).
        apply (Permutation_in _ P) in Q. apply filter_In in Q. tauto.
  - cbn [snd]. intros x Hx. apply JL. eapply Permutation_in; [apply FP|exact Hx].
  - intros x Hx. apply (Permutation_in _ (FP ps)) in Hx. apply (Permutation_in _ Join) in Hx. apply Wpos. exact Hx.
Qed.

(** ** The plan *)
Lemma shape_ids ui tbl : shape ui tbl -> map i_id tbl = map i_id ui.
Proof. intros H. induction H as [|i j l t (A & _) _ IH]; [reflexivity|]. cbn. rewrite A, IH. reflexivity. Qed.
Section Plan.
Context (ui : list instr) (W : well_formed ui) (tbl : list instr) (Sh : shape ui tbl).

Lemma first_output_value id v : first_output tbl id = Ok v -> is_write v = false /\ plain v.
Proof.
  unfold first_output. intros E. apply bind_ok in E as (i & I & E). apply of_option_ok in I, E. apply opid_instr_some in I as [Hi _].
  destruct (shape_In _ _ _ Sh Hi) as (k & Hk & _ & O & _). rewrite O in E. apply nth_error_In in E.
  assert (Q : plain v /\ is_write v = false) by (apply (wf_vars _ W k v Hk); apply in_app_iff; auto). tauto.
Qed.
Lemma var_instr_value o i : var_instr tbl o = Some i -> is_write o = false.
Proof. apply (var_value ui W tbl o i Sh). Qed.

Definition fine (P : string -> Prop) (l : list string) : Prop := forall x, In x l -> P x.
Lemma rename_writes (P : string -> Prop) (PV : forall id v, first_output tbl id = Ok v -> P v) :
  forall torder final r, remove_nostores_and_rename tbl torder final = Ok r -> NoDup (writes (final ++ torder)) ->
  writes r = writes (final ++ torder)
  /\ (fine P final -> (forall x, In x torder -> is_write x = true -> P x) -> fine P r).
Proof.
  induction torder as [|o rest IH]; cbn [remove_nostores_and_rename]; intros final r E N.
  - injection E as <-. rewrite app_nil_r. auto.
  - destruct (is_write o) eqn:Wo.
    + assert (Nm : mem o final = false).
      { destruct (mem o final) eqn:Mm; [|reflexivity]. exfalso. apply mem_In in Mm. rewrite writes_app in N.
        assert (Q : In o (writes final)) by (apply filter_In; auto). change (o :: rest) with ([o] ++ rest) in N. rewrite writes_app in N.
        assert (Q1 : writes [o] = [o]) by (apply filter_all; intros y [<-|[]]; exact Wo). rewrite Q1 in N. cbn [app] in N.
        apply NoDup_remove_2 in N. apply N, in_app_iff. auto. }
      rewrite Nm in E. destruct (IH _ _ E) as [A B]; [rewrite <- app_assoc; exact N|]. rewrite <- app_assoc in A. split; [exact A|].
      intros Pf Po. apply B.
      * intros x Hx. apply in_app_iff in Hx as [Hx|[<-|[]]]; [auto|]. apply Po; [left; reflexivity|exact Wo].
      * intros x Hx. apply Po. right. exact Hx.
    + apply bind_ok in E as (next & _ & E). apply bind_ok in E as (v & V & E). apply bind_ok in E as (b & _ & E).
      pose proof (first_output_value _ _ V) as [Wv _].
      assert (Q : writes (final ++ o :: rest) = writes (final ++ rest)).
      { rewrite !writes_app. f_equal. change (o :: rest) with ([o] ++ rest). rewrite writes_app, (writes_none [o]); [reflexivity|]. intros y [<-|[]]. exact Wo. }
      rewrite Q in *. assert (Q2 : writes ((if b : bool then final else final ++ [v]) ++ rest) = writes (final ++ rest)).
      { destruct b; [reflexivity|]. rewrite !writes_app, (writes_none [v]); [rewrite app_nil_r; reflexivity|]. intros y [<-|[]]. exact Wv. }
      destruct (IH _ _ E) as [A B]; [rewrite Q2; exact N|]. rewrite Q2 in A. split; [exact A|]. intros Pf Po. apply B.
      * destruct b; [exact Pf|]. intros x Hx. apply in_app_iff in Hx as [Hx|[<-|[]]]; [auto|eapply PV; eauto].
      * intros x Hx. apply Po. right. exact Hx.
Qed.
Lemma insert_value_writes order op : is_write op = false -> forall torder r, insert_value tbl order op torder = Ok r ->
  writes r = writes torder /\ forall x, In x r -> x = op \/ In x torder.
Proof.
  intros Wo. assert (Q : forall l, writes (op :: l) = writes l) by (intros l; unfold writes; cbn [filter]; rewrite Wo; reflexivity).
  induction torder as [|cur rest IH]; cbn [insert_value]; intros r E; [injection E as <-; auto|].
  destruct (String.eqb op cur); [injection E as <-; auto|]. apply bind_ok in E as (c & _ & E).
  destruct c; [injection E as <-; split; [apply Q|intros x [<-|Hx]; auto]|]. apply bind_ok in E as (i & _ & E).
  destruct (pair_mem _ _); [injection E as <-; split; [apply Q|intros x [<-|Hx]; auto]|].
  destruct rest as [|y rest].
  - injection E as <-. split; [|intros x [<-|[<-|[]]]; [right; left; reflexivity|auto]]. change [cur; op] with ([cur] ++ [op]). rewrite writes_app, Q. apply app_nil_r.
  - apply bind_ok in E as (r1 & E1 & E). injection E as <-. destruct (IH _ E1) as [A B]. split.
    + change (cur :: r1) with ([cur] ++ r1). rewrite writes_app, A, <- writes_app. reflexivity.
    + intros x [<-|Hx]; [right; left; reflexivity|]. apply B in Hx as [Hx|Hx]; [auto|right; right; exact Hx].
Qed.
Lemma add_needed_writes order : forall n nostores torder r, add_needed_nostores n tbl order nostores torder = Ok r -> values nostores ->
  writes r = writes torder /\ forall x, In x r -> In x nostores \/ In x torder.
Proof.
  induction n as [|n IH]; intros [|y nostores] torder r E V; cbn [add_needed_nostores] in E; try discriminate; try (injection E as <-; auto).
  apply bind_ok in E as (i & _ & E). apply bind_ok in E as (op & O & E). apply of_option_ok, nth_error_In in O. apply bind_ok in E as (t1 & T & E).
  apply insert_value_writes in T as [A B]; [|apply V; exact O].
  assert (Inc : forall x, In x (firstn i (y :: nostores) ++ skipn (S i) (y :: nostores)) -> In x (y :: nostores)).
  { intros x Hx. apply in_app_iff in Hx as [Hx|Hx]; [exact (In_firstn _ _ _ Hx)|exact (In_skipn _ (S i) _ Hx)]. }
  apply IH in E as [C D]; [|intros x Hx; apply V, Inc, Hx]. split; [congruence|]. intros x Hx. apply D in Hx as [Hx|Hx]; [left; apply Inc, Hx|].
  apply B in Hx as [->|Hx]; auto.
Qed.
Lemma needed_nostores_out (P : string -> Prop) (PV : forall id v, first_output tbl id = Ok v -> P v) final :
  forall l r, needed_nostores tbl final l = Ok r -> fine P r.
Proof.
  induction l as [|o l IH]; cbn [needed_nostores]; intros r E; [injection E as <-; intros ? []|].
  destruct (is_write o); [apply IH; exact E|]. apply bind_ok in E as (v & V & E). apply bind_ok in E as (a & _ & E). apply bind_ok in E as (b & _ & E).
  apply bind_ok in E as (r1 & R & E). injection E as <-. intros x Hx. apply in_app_iff in Hx as [Hx|Hx]; [|eapply IH; eauto].
  destruct (a || b); [destruct Hx as [<-|[]]; eapply PV; eauto|destruct Hx].
Qed.

(** The counts are those of values. *)
Lemma for_each_inv {A S} (I : S -> Prop) (f : S -> A -> result S) l : (forall s x s', In x l -> I s -> f s x = Ok s' -> I s') ->
  forall s s', I s -> for_each f l s = Ok s' -> I s'.
Proof.
  induction l as [|x l IH]; cbn; intros F s s' Is E; [injection E as <-; exact Is|]. apply bind_ok in E as (s1 & E1 & E).
  eapply IH; [intros ? ? ? Hx; apply F; right; exact Hx| |exact E]. eapply F; [left; reflexivity|exact Is|exact E1].
Qed.
Lemma count_uses_one_keys e forced : e_tbl e = tbl -> forall fuel uses o r, count_uses_one fuel e forced uses o = Ok r ->
  is_write o = false -> values (map fst uses) -> values (map fst r).
Proof.
  intros T. induction fuel as [|f IH]; intros uses o r E Wo V; cbn [count_uses_one] in E.
  all: assert (Set_ : forall (n : Z) (u : list (string * Z)), values (map fst u) -> values (map fst (UtilModel.dict_set o n u)))
    by (intros n u Vu x Hx; apply keys_set in Hx as [->|Hx]; auto).
  all: destruct (UtilModel.lookup o uses) as [n|]; [injection E as <-; apply Set_; exact V|].
  all: apply bind_ok in E as (d & _ & E); set (u1 := if d || _ then _ else _) in E.
  all: assert (V1 : values (map fst u1)) by (unfold u1; destruct (d || _); [apply Set_|]; exact V).
  all: destruct (var_instr (e_tbl e) o) as [i|] eqn:I; [|injection E as <-; exact V1].
  all: destruct (is_mwrite_output (i_id i)); [injection E as <-; exact V1|]; try discriminate.
  rewrite T in I. apply var_instr_some in I as [Hi _].
  apply (for_each_inv (fun u => values (map fst u)) _ _) with (2 := V1) (3 := E). intros s x s' Hx Vs Es. apply (IH _ _ _ Es); [|exact Vs].
  apply (shape_ins ui W tbl i Sh Hi). exact Hx.
Qed.
Lemma count_uses_keys e forced r : e_tbl e = tbl -> values (g_initial (e_setup e)) -> values (g_final (e_setup e)) ->
  count_uses e forced = Ok r -> values (map fst r).
Proof.
  intros T VI VF E. unfold count_uses in E. apply bind_ok in E as (u & U & E).
  assert (V0 : values (map fst (fold_left (fun u o => UtilModel.dict_set o 0 u) (g_initial (e_setup e)) []))).
  { assert (G : forall l u, values l -> values (map fst u) -> values (map fst (fold_left (fun (u : list (string * Z)) o => UtilModel.dict_set o 0 u) l u))).
    { clear. induction l as [|x l IH]; cbn; intros u V Vu; [exact Vu|]. apply IH; [intros y Hy; apply V; right; exact Hy|].
      intros y Hy. apply keys_set in Hy as [->|Hy]; [apply V; left; reflexivity|auto]. }
    apply G; [exact VI|intros ? []]. }
  assert (V1 : values (map fst u)).
  { apply (for_each_inv (fun u => values (map fst u)) _ _) with (2 := V0) (3 := U). intros s o s' _ Vs Es.
    apply bind_ok in Es as (i & I & Es). apply of_option_ok in I. rewrite T in I. apply opid_instr_some in I as [Hi _]. apply bind_ok in Es as (a & _ & Es).
    apply (for_each_inv (fun u => values (map fst u)) _ _) with (2 := Vs) (3 := Es). intros s1 x s2 Hx V2 E2.
    eapply count_uses_one_keys; [exact T|exact E2| |exact V2]. apply (shape_ins ui W tbl i Sh Hi). exact Hx. }
  apply (for_each_inv (fun u => values (map fst u)) _ _) with (2 := V1) (3 := E). intros s1 x s2 Hx V2 E2.
  eapply count_uses_one_keys; [exact T|exact E2| |exact V2]. auto.
Qed.

(** ** The dependencies *)
Definition known (id : string) : Prop := In id (map i_id ui).
Definition about (deps : list (string * string)) : Prop := forall a b, In (a, b) deps -> known a /\ known b.
Lemma about_app a b : about a -> about b -> about (a ++ b).
Proof. intros A B x y H. apply in_app_iff in H as [H|H]; auto. Qed.
Lemma about_ends deps x : about deps -> In x (flat_map (fun p => [fst p; snd p]) deps) -> known x.
Proof. intros A H. apply in_flat_map in H as ([a b] & H & Hx). cbn in Hx. destruct (A _ _ H). destruct Hx as [<-|[<-|[]]]; assumption. Qed.
Lemma get_ops_known ops x : In x (get_ops_id tbl ops) -> known x.
Proof.
  unfold get_ops_id, known. rewrite <- (shape_ids ui tbl Sh). intros H. apply in_map_iff in H as (i & <- & H). apply filter_In in H as [H _]. apply in_map. exact H.
Qed.
Lemma extend_about deps ops all r : extend_dependencies tbl deps ops all = Ok r -> about deps -> about all -> about r.
Proof.
  unfold extend_dependencies. intros E A B. apply bind_ok in E as (need_ops & Nd & E).
  assert (K : forall os, In os need_ops -> known (fst os)).
  { intros os H. apply map_result_fst in Nd; [|intros x y Q; apply bind_ok in Q as (z & _ & Q); injection Q as <-; reflexivity].
    assert (Q : In (fst os) (map fst need_ops)) by (apply in_map; exact H). rewrite Nd in Q. apply add_all_In in Q as [Q|[]].
    apply in_app_iff in Q as [Q|Q]; [eapply get_ops_known; eauto|exact (about_ends _ _ A Q)]. }
  apply (for_each_inv about _ _) with (2 := A) (3 := E). intros s o s' Ho As Es. apply bind_ok in Es as (v & _ & Es). injection Es as <-.
  assert (Ko : known o). { apply add_all_In in Ho as [Ho|[]]. apply filter_In in Ho as [Ho _]. exact (about_ends _ _ B Ho). }
  clear -K As Ko. revert s As. induction need_ops as [|os l IH]; cbn; intros s As; [exact As|]. apply IH; [intros os' H; apply K; right; exact H|].
  destruct (_ && _ && _); [|exact As]. apply about_app; [exact As|]. intros a b [E|[]]. injection E as <- <-. split; [exact Ko|apply K; left; reflexivity].
Qed.
Definition ready (e : encoding) : Prop :=
  e_tbl e = tbl /\ about (e_mem e) /\ about (e_sto e) /\ about (e_trans e)
  /\ forall k l, In (k, l) (g_func_deps (e_setup e)) -> values l.
Lemma dict_set_In {A} k (v : A) d x : In x (UtilModel.dict_set k v d) -> x = (k, v) \/ In x d.
Proof.
  induction d as [|[k' v'] d IH]; cbn; [intros [H|[]]; auto|]. destruct (String.eqb_spec k' k) as [->|]; cbn; intros [H|H]; auto.
  destruct (IH H); auto.
Qed.
Lemma init_ready reach pd ms sp final e : init reach pd ms sp tbl final = Ok e ->
  about (t_mem sp) -> about (t_sto sp) -> about (t_trans sp) ->
  ready e /\ g_initial (e_setup e) = s_src (t_sfs sp) /\ g_final (e_setup e) = final /\ e_deps e = s_deps (t_sfs sp) /\ g_reach (e_setup e) = reach.
Proof.
  unfold init. intros E Am As At. apply bind_ok in E as (m & Em & E). apply bind_ok in E as (s & Es & E). apply bind_ok in E as (t & Et & E).
  apply bind_ok in E as (u & _ & E). apply bind_ok in E as (fd & F & E). injection E as <-. cbn.
  assert (All : about (t_mem sp ++ t_sto sp ++ t_trans sp)) by (repeat apply about_app; assumption).
  split; [|auto]. split; [reflexivity|]. split; [eapply extend_about; eauto|]. split; [eapply extend_about; eauto|]. split; [eapply extend_about; eauto|].
  cbn. apply (for_each_inv (fun acc => forall k l, In (k, l) (fst acc) -> values l) _ _) with (3 := F); [|intros ? ? []].
  intros acc d acc' _ IH Q. apply bind_ok in Q as (o0 & O0 & Q). apply bind_ok in Q as (o1 & _ & Q). injection Q as <-. cbn [fst].
  apply first_output_value in O0 as [O0 _]. intros k l H. apply dict_set_In in H as [H|H]; [|eapply IH; exact H]. injection H as -> ->.
  destruct (UtilModel.lookup o1 (fst acc)) as [l0|] eqn:L.
  - apply values_app; [|intros y [<-|[]]; exact O0]. apply UtilProps.lookup_In in L. eapply IH; exact L.
  - intros y [<-|[]]; exact O0.
Qed.
End Plan.

(** ** The order of two operations *)
Lemma last_pos_nth ids x i : last_pos ids x = Some i -> nth_error ids i = Some x.
Proof.
  unfold last_pos. destruct (index_of x (rev ids)) as [k|] eqn:K; [|discriminate]. intros E. injection E as <-. apply index_of_nth in K.
  assert (L : (k < length ids)%nat) by (rewrite <- rev_length; apply nth_error_Some; congruence).
  apply nth_error_split in K as (a & b & E & <-). assert (Q : ids = rev b ++ x :: rev a).
  { rewrite <- (rev_involutive ids), E, rev_app_distr. cbn. rewrite <- app_assoc. reflexivity. }
  rewrite Q in *. rewrite app_length in *. cbn [length] in *. rewrite !rev_length in *.
  replace (length b + S (length a) - 1 - length a)%nat with (length (rev b)) by (rewrite rev_length; lia).
  rewrite nth_error_app2 by lia. rewrite Nat.sub_diag. reflexivity.
Qed.
Lemma index_of_None x l : index_of x l = None -> ~ In x l.
Proof.
  induction l as [|y l IH]; cbn; [tauto|]. destruct (String.eqb_spec y x); [discriminate|]. destruct (index_of x l); [discriminate|].
  intros _ [H|H]; [congruence|]. apply IH; auto.
Qed.
Lemma last_pos_some ids x : In x ids -> exists i, last_pos ids x = Some i.
Proof.
  intros H. unfold last_pos. destruct (index_of x (rev ids)) eqn:K; [eauto|]. exfalso. apply index_of_None in K. apply K. apply in_rev in H. exact H.
Qed.
Lemma precedes_nth a b ids i j : nth_error ids i = Some a -> nth_error ids j = Some b -> (i < j)%nat -> precedes a b ids.
Proof.
  intros A B L. apply nth_error_split in A as (l1 & l2 & -> & <-). rewrite nth_error_app2 in B by lia.
  destruct (j - length l1)%nat as [|k] eqn:K; [lia|]. cbn in B. apply nth_error_split in B as (l3 & l4 & -> & _).
  exists l1, l3, l4. reflexivity.
Qed.
Lemma check_precedes deps ids a b : check_dependencies deps ids = true -> In (a, b) deps -> In a ids -> In b ids -> precedes a b ids.
Proof.
  unfold check_dependencies. rewrite forallb_forall. intros C D A B. specialize (C _ D). cbn in C.
  destruct (last_pos_some _ _ A) as [i I]. destruct (last_pos_some _ _ B) as [j J]. rewrite I, J in C. apply Nat.ltb_lt in C.
  eapply precedes_nth; eauto using last_pos_nth.
Qed.
Lemma precedes_filter p a b ids : precedes a b ids -> p a = true -> p b = true -> precedes a b (filter p ids).
Proof.
  intros (x & y & z & ->) A B. rewrite filter_app. cbn. rewrite A, filter_app. cbn. rewrite B. exists (filter p x), (filter p y), (filter p z). reflexivity.
Qed.
Lemma filter_split (p : string -> bool) : forall l x a b, filter p l = a ++ x :: b -> exists a' b', l = a' ++ x :: b' /\ filter p a' = a /\ filter p b' = b.
Proof.
  induction l as [|y l IH]; cbn; intros x a b E; [destruct a; discriminate|]. destruct (p y) eqn:P.
  - destruct a as [|z a]; injection E as -> E.
    + exists [], l. auto.
    + destruct (IH _ _ _ E) as (a' & b' & -> & <- & <-). exists (z :: a'), b'. cbn. rewrite P. auto.
  - destruct (IH _ _ _ E) as (a' & b' & -> & <- & <-). exists (y :: a'), b'. cbn. rewrite P. auto.
Qed.
Lemma precedes_unfilter p a b ids : precedes a b (filter p ids) -> precedes a b ids.
Proof.
  intros (x & y & z & E). apply filter_split in E as (x' & r & -> & _ & E). apply filter_split in E as (y' & z' & -> & _ & _).
  exists x', y', z'. reflexivity.
Qed.
Lemma once_filter p x ids : NoDup (filter p ids) -> p x = true -> In x ids -> once x ids.
Proof.
  intros N P H. apply in_split in H as (a & b & ->). exists a, b. split; [reflexivity|]. rewrite filter_app in N. cbn in N. rewrite P in N.
  apply NoDup_remove_2 in N. intros Q. apply N. rewrite in_app_iff in *. rewrite !filter_In. tauto.
Qed.

(** ** The last phase *)
Lemma useless_stores (p : string -> bool) : p "SWAP1" = false -> forall n fr r, (length r < n)%nat -> GreedyTailProofs.names_match (fr ++ r) ->
  filter p (map snd (GreedyTailModel.useless_loop fr r)) = filter p (map snd (rev fr ++ r)).
Proof.
  intros P. induction n as [|n IH]; intros fr r L N; [lia|]. destruct r as [|x r]; [cbn; rewrite app_nil_r; reflexivity|].
  cbn [length] in L. assert (Sw : forall y, In y (fr ++ x :: r) -> fst y = "SWAP1" -> p (snd y) = false).
  { intros y Hy E. destruct (N y Hy) as [A _]. rewrite (A E). exact P. }
  cbn [GreedyTailModel.useless_loop]. destruct fr as [|y fr].
  - rewrite IH; [reflexivity|lia|exact N].
  - destruct (_ && _) eqn:B1.
    + apply andb_true_iff in B1 as [By Bx]. apply String.eqb_eq in By, Bx.
      assert (Py : p (snd y) = false) by (apply Sw; [left; reflexivity|exact By]).
      assert (Px : p (snd x) = false) by (apply Sw; [apply in_app_iff; right; left; reflexivity|exact Bx]).
      destruct fr as [|z fr].
      * cbn [rev app map filter]. rewrite Py, Px. destruct r as [|x' r]; [reflexivity|]. cbn [length] in L. rewrite IH; [reflexivity|lia|].
        intros q Hq. apply N. right. right. exact Hq.
      * rewrite IH; [|lia|]. 2: { intros q Hq. apply N. apply in_app_iff in Hq as [Hq|Hq]; apply in_app_iff; [left; right; exact Hq|right; right; exact Hq]. }
        cbn [rev]. rewrite !map_app, !filter_app. cbn [map filter]. rewrite Py, Px, app_nil_r. reflexivity.
    + clear B1. destruct (String.eqb (fst y) "DUP1" && String.eqb (fst x) "SWAP1") eqn:B2.
      * apply andb_true_iff in B2 as [By Bx]. apply String.eqb_eq in Bx.
        assert (Px : p (snd x) = false) by (apply Sw; [apply in_app_iff; right; left; reflexivity|exact Bx]).
        rewrite IH; [|lia|]. 2: { intros q Hq. apply N. apply in_app_iff in Hq as [Hq|Hq]; apply in_app_iff; [left; exact Hq|right; right; exact Hq]. }
        rewrite !map_app, !filter_app. cbn [map filter]. rewrite Px. reflexivity.
      * rewrite IH; [|lia|]. 2: { intros q Hq. apply N. cbn in Hq. rewrite in_app_iff in *. cbn in *. tauto. }
        cbn [rev]. rewrite <- app_assoc. reflexivity.
Qed.
Lemma remove_useless_stores (p : string -> bool) r : p "SWAP1" = false -> GreedyTailProofs.names_match r ->
  filter p (map snd (GreedyTailModel.remove_useless r)) = filter p (map snd r).
Proof.
  intros P N. unfold GreedyTailModel.remove_useless. destruct r as [|x [|y r]]; try reflexivity.
  rewrite (useless_stores p P (S (length (y :: r)))); [reflexivity|lia|exact N].
Qed.
