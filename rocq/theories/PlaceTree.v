(** Along the dominator tree every register is written before it is read. *)
From Coq Require Import Permutation.
From Verif Require LevelProps.
From Verif Require Import Base Lexical LexicalProofs SymExecModel AsmModel DepsModel SpecModel UtilModel WebModel UnifyProps RegModel RegSpec RegProps
  PlaceModel PlaceSpec PlaceBlock.
Open Scope string_scope. Open Scope list_scope.

Lemma NoDup_app_iff {A} (l l' : list A) : NoDup (l ++ l') <-> NoDup l /\ NoDup l' /\ forall x, In x l -> ~ In x l'.
Proof.
  induction l as [|a l IH]; cbn; [split; [intros H; repeat split; [constructor|exact H|intros x []]|tauto]|].
  split.
  - intros H. inversion H as [|? ? N H']; subst. apply IH in H' as (H1 & H2 & H3). rewrite in_app_iff in N. split; [constructor; tauto|]. split; [exact H2|].
    intros x [<-|I]; [tauto|auto].
  - intros (H1 & H2 & H3). inversion H1 as [|? ? N H']; subst. constructor; [rewrite in_app_iff; intros [I|I]; [tauto|apply (H3 a); auto]|].
    apply IH. split; [exact H'|]. split; [exact H2|]. intros x I. apply H3. right. exact I.
Qed.

(* --- counters --- *)
Definition cwf (c : counter) : Prop := NoDup (map fst c) /\ forall v n, In (v, n) c -> 0 < n.
Lemma cget_set c v n x : cget (dict_set v n c) x = if v =? x then n else cget c x.
Proof. unfold cget. rewrite lookup_dict_set. destruct (v =? x); reflexivity. Qed.
Lemma keys_set {A} k (v : A) d x : In x (map fst (dict_set k v d)) <-> x = k \/ In x (map fst d).
Proof.
  induction d as [|[k' v'] d IH]; cbn; [intuition congruence|].
  destruct (String.eqb_spec k' k) as [->|N]; cbn; [intuition congruence|]. rewrite IH. intuition congruence.
Qed.
Lemma keys_nodup {A} k (v : A) d : NoDup (map fst d) -> NoDup (map fst (dict_set k v d)).
Proof.
  induction d as [|[k' v'] d IH]; cbn; intros H; [constructor; [intros []|constructor]|]. inversion H as [|? ? N H']; subst.
  destruct (String.eqb_spec k' k) as [->|Nk]; cbn; [exact H|]. constructor; [|auto]. rewrite keys_set. intros [->|I]; [congruence|contradiction].
Qed.
Lemma In_set {A} k (v : A) d x y : In (x, y) (dict_set k v d) -> x = k /\ y = v \/ In (x, y) d.
Proof.
  induction d as [|[k' v'] d IH]; cbn; [intros [E|[]]; injection E as <- <-; auto|].
  destruct (String.eqb_spec k' k) as [->|N]; cbn.
  - intros [E|I]; [injection E as <- <-; auto|auto].
  - intros [E|I]; [auto|]. destruct (IH I); auto.
Qed.
Lemma cwf_set c v n : cwf c -> 0 < n -> cwf (dict_set v n c).
Proof. intros [N P] Ln. split; [apply keys_nodup; exact N|]. intros x m I. apply In_set in I as [[-> ->]|I]; [exact Ln|eauto]. Qed.
Lemma cwf_nil : cwf []. Proof. split; [constructor|intros v n []]. Qed.
Lemma cwf_inc c v : cwf c -> cwf (cinc c v).
Proof. intros H. apply cwf_set; [exact H|lia]. Qed.
Lemma cget_inc c v x : cget (cinc c v) x = cget c x + if v =? x then 1 else 0.
Proof. unfold cinc. rewrite cget_set. destruct (String.eqb_spec v x) as [->|]; lia. Qed.
Lemma cget_In c v : cwf c -> (In v (map fst c) <-> 0 < cget c v).
Proof.
  intros [N P]. unfold cget. destruct (lookup v c) as [n|] eqn:L.
  - assert (I : In (v, n) c) by (apply RemoveProps.lookup_In; exact L). split; [intros _; eauto|]. intros _. apply in_map_iff. exists (v, n). auto.
  - split; [|lia]. intros I. exfalso. apply in_map_iff in I as ([x n] & E & I). cbn in E. subst x.
    rewrite (LevelProps.lookup_NoDup v n c N I) in L. discriminate.
Qed.
Lemma cplus_spec d : forall c, cwf d -> cwf c -> cwf (cplus c d) /\ forall x, cget (cplus c d) x = cget c x + cget d x.
Proof.
  unfold cplus. induction d as [|[v n] d IH]; intros c [N P] Wc; cbn [fold_left fst snd].
  - split; [exact Wc|]. intros x. unfold cget at 3. cbn. lia.
  - cbn in N. inversion N as [|? ? Nv N']; subst.
    assert (Wd : cwf d) by (split; [exact N'|intros y m I; eapply P; right; exact I]).
    assert (Pn : 0 < n) by (eapply P; left; reflexivity).
    destruct (IH (dict_set v (cget c v + n) c) Wd) as [W E]; [apply cwf_set; [exact Wc|lia]|]. split; [exact W|].
    intros x. rewrite E, cget_set. assert (Q : cget ((v, n) :: d) x = if v =? x then n else cget d x) by (unfold cget; cbn [lookup]; destruct (v =? x); reflexivity).
    rewrite Q. destruct (String.eqb_spec v x) as [->|Nx]; [|reflexivity].
    assert (Z : cget d x = 0); [|lia]. destruct (Nat.eq_dec (cget d x) 0) as [e|e]; [exact e|]. exfalso. apply Nv, cget_In; [exact Wd|lia].
Qed.
Lemma cget_pop v c x : cget (cpop v c) x = if v =? x then 0 else cget c x.
Proof.
  unfold cget, cpop. induction c as [|[k n] c IH]; cbn [filter lookup fst]; [destruct (v =? x); reflexivity|].
  destruct (String.eqb_spec k v) as [->|N]; cbn [negb].
  - rewrite IH. destruct (v =? x); reflexivity.
  - cbn [lookup]. destruct (String.eqb_spec k x) as [->|N2]; [|exact IH].
    destruct (String.eqb_spec v x) as [->|]; [congruence|reflexivity].
Qed.
Lemma cwf_pop v c : cwf c -> cwf (cpop v c).
Proof.
  intros [N P]. split.
  - unfold cpop. clear P. induction c as [|[k n] c IH]; cbn; [constructor|]. cbn in N. inversion N as [|? ? Nk N']; subst.
    destruct (k =? v); cbn; [auto|]. constructor; [|auto]. intros I. apply Nk. apply in_map_iff in I as ([y m] & E & I). apply filter_In in I as [I _].
    apply in_map_iff. exists (y, m). auto.
  - intros x n I. apply filter_In in I as [I _]. eauto.
Qed.
Lemma pops_spec zs : forall c, cwf c -> cwf (fold_left (fun c v => cpop v c) zs c) /\
  forall x, cget (fold_left (fun c v => cpop v c) zs c) x = if mem x zs then 0 else cget c x.
Proof.
  induction zs as [|z zs IH]; intros c W; cbn [fold_left]; [split; [exact W|reflexivity]|].
  destruct (IH (cpop z c) (cwf_pop z c W)) as [W' E]. split; [exact W'|]. intros x. rewrite E, cget_pop. unfold mem. cbn [existsb].
  rewrite String.eqb_sym. destruct (String.eqb x z), (existsb (String.eqb x) zs); reflexivity.
Qed.
Lemma set_add_nodup x s : NoDup s -> NoDup (set_add x s).
Proof.
  unfold set_add. intros N. destruct (mem x s) eqn:M; [exact N|]. apply mem_false in M.
  apply (Permutation_NoDup (l := x :: s)); [apply Permutation_cons_append|]. constructor; assumption.
Qed.
Lemma zero_spec rc : forall zs lc zs' lc', cwf rc -> (forall v, In v zs -> ~ In v (map fst rc)) -> NoDup zs ->
  fold_left zero_step rc (zs, lc) = (zs', lc') ->
  NoDup zs' /\ (forall v, In v zs' <-> In v zs \/ 0 < cget rc v /\ cget lc v = cget rc v)
  /\ forall v, cget lc' v = if mem v zs' && negb (mem v zs) then 0 else cget lc v.
Proof.
  induction rc as [|[v n] rc IH]; intros zs lc zs' lc' [N P] D Nz H; cbn [fold_left] in H.
  - injection H as <- <-. split; [exact Nz|]. split; [intros v; unfold cget at 1; cbn; intuition lia|]. intros v. destruct (mem v zs); reflexivity.
  - cbn in N. inversion N as [|? ? Nv N']; subst.
    assert (W' : cwf rc) by (split; [exact N'|intros y m I; eapply P; right; exact I]).
    assert (Pn : 0 < n) by (eapply P; left; reflexivity).
    assert (Q : forall x, cget ((v, n) :: rc) x = if v =? x then n else cget rc x) by (intros x; unfold cget; cbn [lookup]; destruct (v =? x); reflexivity).
    assert (Zv : cget rc v = 0) by (destruct (Nat.eq_dec (cget rc v) 0) as [e|e]; [exact e|]; exfalso; apply Nv, cget_In; [exact W'|lia]).
    unfold zero_step at 2 in H. cbn [fst snd] in H. destruct (Nat.eqb_spec (cget lc v) n) as [E|E].
    + apply IH in H; [|exact W'|intros x I; apply LevelProps.set_add_In in I as [->|I]; [exact Nv|intros I'; apply (D x I); right; exact I']|apply set_add_nodup; exact Nz].
      destruct H as (H1 & H2 & H3). split; [exact H1|]. split.
      * intros x. rewrite H2, LevelProps.set_add_In, cget_pop, Q. destruct (String.eqb_spec v x) as [->|Nx]; [|intuition congruence].
        rewrite Zv. split; [|intros _; left; left; reflexivity]. intros _. right. split; [exact Pn|]. exact E.
      * intros x. rewrite H3, cget_pop. destruct (String.eqb_spec v x) as [->|Nx].
        -- assert (M1 : mem x zs' = true) by (apply mem_In, H2; left; apply LevelProps.set_add_In; auto).
           assert (M2 : mem x zs = false) by (apply mem_false; intros I; apply (D x I); left; reflexivity).
           rewrite M1, M2. cbn. match goal with |- (if ?c then _ else _) = _ => destruct c; reflexivity end.
        -- assert (M : mem x (set_add v zs) = mem x zs); [|rewrite M; reflexivity].
           destruct (mem x zs) eqn:M.
           ++ apply mem_In, LevelProps.set_add_In. right. apply mem_In, M.
           ++ apply mem_false. intros I. apply LevelProps.set_add_In in I as [->|I]; [congruence|]. apply mem_false in M. contradiction.
    + apply IH in H; [|exact W'|intros x I I'; apply (D x I); right; exact I'|exact Nz].
      destruct H as (H1 & H2 & H3). split; [exact H1|]. split; [|exact H3].
      intros x. rewrite H2, Q. destruct (String.eqb_spec v x) as [->|Nx]; [|reflexivity]. rewrite Zv. split; [intros [I|[I _]]; [auto|lia]|].
      intros [I|[I1 I2]]; [auto|]. exfalso. apply E. exact I2.
Qed.
Lemma substract_zero_spec lc rc zs lc' rc' : cwf rc -> substract_zero lc rc = (zs, lc', rc') ->
  NoDup zs /\ (forall v, In v zs <-> 0 < cget rc v /\ cget lc v = cget rc v)
  /\ (forall v, cget lc' v = if mem v zs then 0 else cget lc v) /\ cwf rc' /\ (forall v, cget rc' v = if mem v zs then 0 else cget rc v).
Proof.
  unfold substract_zero. intros W H. destruct (fold_left zero_step rc ([], lc)) as [zs0 lc0] eqn:F. injection H as <- <- <-.
  apply zero_spec in F; [|exact W|intros v []|constructor]. destruct F as (F1 & F2 & F3). split; [exact F1|]. split.
  - intros v. rewrite F2. cbn. tauto.
  - split; [intros v; rewrite F3, andb_true_r; reflexivity|]. apply pops_spec. exact W.
Qed.

(* --- trees --- *)
Section PtreeInd.
  Variable P : ptree -> Prop.
  Hypothesis H : forall b ch, Forall P ch -> P (PNode b ch).
  Fixpoint ptree_ind' (t : ptree) : P t :=
    match t with
    | PNode b ch => H b ch ((fix go ch := match ch return Forall P ch with [] => Forall_nil P | t :: ch' => Forall_cons t (ptree_ind' t) (go ch') end) ch)
    end.
End PtreeInd.

Lemma set_union_In a b x : In x (set_union a b) <-> In x a \/ In x b.
Proof.
  unfold set_union. revert a. induction b as [|y b IH]; intros a; cbn; [tauto|]. rewrite IH, LevelProps.set_add_In. intuition congruence.
Qed.
Lemma set_union_nodup a b : NoDup a -> NoDup (set_union a b).
Proof. unfold set_union. revert a. induction b as [|y b IH]; intros a N; cbn; [exact N|]. apply IH, set_add_nodup, N. Qed.

Section S.
Variable order : string -> list string -> list string.
Variable within : string -> string -> bool.
Hypothesis order_perm : forall b l, Permutation (order b l) l.

Fixpoint store_list (ch : list ptree) (initial : counter) (intro : list string) (combined : counter)
  : result (list ptree * list string * counter * counter) :=
  match ch with
  | [] => Ok ([], intro, combined, initial)
  | t' :: ch' =>
      do r <- store_block order within t' initial; let '(t'', vs, c, initial') := r in
      do rs <- store_list ch' initial' (set_union intro vs) (cplus combined c);
      let '(ts, intro', combined', initial'') := rs in Ok (t'' :: ts, intro', combined', initial'')
  end.
Lemma store_block_eq b ch initial : store_block order within (PNode b ch) initial =
  (do r <- store_list ch initial [] [];
   let '(ch', intro, combined, initial1) := r in
   let '(zero, initial2, combined2) := substract_zero initial1 (cplus combined (pb_count b)) in
   do s <- store_here order within (set_union intro zero) b; let '(b', left_vars) := s in
   Ok (PNode b' ch', left_vars, combined2, initial2)).
Proof. reflexivity. Qed.

(** The values stored in a block. *)
Definition stores_at (intro : list string) (b : pblock) : list string :=
  filter (fun v => within v (pb_name b)) (order (pb_name b) (filter (fun v => mem v (map fst (pb_reach b))) intro)).
Lemma insert_name v b b' : insert_dup_vset v b = Ok b' -> pb_name b' = pb_name b.
Proof. unfold insert_dup_vset. intros H. apply bind_ok in H as ([[p k] l] & _ & H). apply (f_equal (fun r => match r with Ok x => pb_name x | _ => "" end)) in H. symmetry. exact H. Qed.
Lemma store_here_spec intro b b' L : store_here order within intro b = Ok (b', L) ->
  for_each (fun b v => insert_dup_vset v b) (stores_at intro b) b = Ok b' /\ L = filter (fun v => negb (mem v (stores_at intro b))) intro.
Proof.
  unfold store_here. intros H. apply bind_ok in H as ([b1 stored] & H & E). injection E as <- <-.
  unfold stores_at. set (l := order (pb_name b) (filter (fun v => mem v (map fst (pb_reach b))) intro)) in *. clearbody l.
  assert (G : forall l b0 s0, pb_name b0 = pb_name b ->
    for_each (fun st v => let '(b, stored) := (st : pblock * list string) in
      if within v (pb_name b) then do b' <- insert_dup_vset v b; Ok (b', v :: stored) else Ok st) l (b0, s0) = Ok (b1, stored) ->
    for_each (fun b v => insert_dup_vset v b) (filter (fun v => within v (pb_name b)) l) b0 = Ok b1 /\
    forall x, In x stored <-> In x s0 \/ In x (filter (fun v => within v (pb_name b)) l)).
  { clear H l. intros l. induction l as [|v l IH]; intros b0 s0 En H; cbn [for_each filter] in H |- *.
    - injection H as <- <-. split; [reflexivity|]. intros x. cbn. tauto.
    - apply bind_ok in H as ([b2 s2] & H & H'). rewrite En in H. destruct (within v (pb_name b)).
      + apply bind_ok in H as (b3 & I & H). injection H as <- <-. destruct (IH b3 (v :: s0)) as [I1 I2]; [rewrite (insert_name _ _ _ I); exact En|exact H'|].
        cbn [for_each]. rewrite I. split; [exact I1|]. intros x. rewrite I2. cbn. tauto.
      + injection H as <- <-. apply IH; assumption. }
  destruct (G l b [] eq_refl H) as [G1 G2]. split; [exact G1|]. apply filter_ext. intros x. f_equal.
  destruct (mem x stored) eqn:M.
  - apply mem_In, G2 in M as [[]|M]. symmetry. apply mem_In. exact M.
  - symmetry. apply mem_false. intros I. apply mem_false in M. apply M, G2. auto.
Qed.
Lemma stores_at_incl intro b x : In x (stores_at intro b) <-> In x intro /\ In x (map fst (pb_reach b)) /\ within x (pb_name b) = true.
Proof.
  unfold stores_at. rewrite filter_In. rewrite (Permutation_in' eq_refl (order_perm _ _)), filter_In, mem_In. tauto.
Qed.
Lemma stores_at_nodup intro b : NoDup intro -> NoDup (stores_at intro b).
Proof. intros N. unfold stores_at. apply NoDup_filter. rewrite order_perm. apply NoDup_filter. exact N. Qed.

Definition sum (v : string) (bs : list pblock) : nat := list_sum (map (fun b => cget (pb_count b) v) bs).
Lemma sum_app v a b : sum v (a ++ b) = sum v a + sum v b.
Proof. unfold sum. rewrite map_app, list_sum_app. reflexivity. Qed.
Definition total (v : string) (t : ptree) : nat := sum v (tree_blocks t).
Definition totals (v : string) (ts : list ptree) : nat := sum v (concat (map tree_blocks ts)).

(** [t'] is [t] with stores of [ins] added. *)
Inductive stored : ptree -> ptree -> list string -> Prop :=
| st_node b ch b' ch' vs ins : for_each (fun b v => insert_dup_vset v b) vs b = Ok b' -> stored_all ch ch' ins -> stored (PNode b ch) (PNode b' ch') (vs ++ ins)
with stored_all : list ptree -> list ptree -> list string -> Prop :=
| st_nil : stored_all [] [] []
| st_cons t ts t' ts' ins ins' : stored t t' ins -> stored_all ts ts' ins' -> stored_all (t :: ts) (t' :: ts') (ins ++ ins').

(** what a variable can be after a subtree: still pending, or decided *)
Definition state (C I I' comb : nat) (decided : Prop) : Prop :=
  (comb = C /\ I' = I /\ (C = 0 \/ C < I) /\ ~ decided) \/ (comb = 0 /\ I' = 0 /\ 0 < C /\ C = I /\ decided).
Definition post (t t' : ptree) (I I' comb : counter) (L : list string) : Prop :=
  cwf comb /\ exists ins, stored t t' ins /\ NoDup (ins ++ L) /\
  forall v, state (total v t) (cget I v) (cget I' v) (cget comb v) (In v (ins ++ L)).
Definition posts (ts ts' : list ptree) (I I' comb0 comb : counter) (L0 L : list string) : Prop :=
  cwf comb /\ NoDup L /\ (forall v, In v L -> cget I' v = 0) /\ exists ins, stored_all ts ts' ins /\ NoDup ins /\ (forall v, In v ins -> ~ In v L) /\
  forall v, (cget comb v = cget comb0 v + totals v ts /\ cget I' v = cget I v /\ (In v L <-> In v L0) /\ ~ In v ins)
    \/ (0 < totals v ts /\ totals v ts = cget I v /\ cget comb v = cget comb0 v /\ cget I' v = 0 /\ In v (ins ++ L) /\ ~ In v L0).

Definition counts_ok (t : ptree) : Prop := forall b, In b (tree_blocks t) -> cwf (pb_count b).
Lemma store_list_inv ts : Forall (fun t => forall I t' L comb I', counts_ok t -> (forall v, total v t <= cget I v) ->
    store_block order within t I = Ok (t', L, comb, I') -> post t t' I I' comb L) ts ->
  forall I L0 comb0 ts' L comb I', (forall t, In t ts -> counts_ok t) -> (forall v, cget comb0 v + totals v ts <= cget I v) ->
    cwf comb0 -> NoDup L0 -> (forall v, In v L0 -> cget I v = 0) ->
    store_list ts I L0 comb0 = Ok (ts', L, comb, I') -> posts ts ts' I I' comb0 comb L0 L.
Proof.
  induction 1 as [|t ts IHt _ IH]; intros I L0 comb0 ts' L comb I' CO Hle W0 N0 Z0 H; cbn [store_list] in H.
  - injection H as <- <- <- <-. repeat (split; [assumption|]). exists []. split; [constructor|]. split; [constructor|]. split; [intros v []|].
    intros v. left. split; [unfold totals, sum; cbn; lia|]. split; [reflexivity|]. split; [tauto|intros []].
  - apply bind_ok in H as ([[[t1 vs] c] I1] & B & H). apply bind_ok in H as ([[[ts1 L1] comb1] I2] & R & H). injection H as <- <- <- <-.
    assert (Et : forall v, totals v (t :: ts) = total v t + totals v ts) by (intros v; unfold totals, total; cbn [map concat]; apply sum_app).
    apply IHt in B; [|apply CO; left; reflexivity|intros v; specialize (Hle v); rewrite Et in Hle; lia].
    destruct B as (Wc & ins & St & Nd & Bs). destruct (cplus_spec c comb0 Wc W0) as [W1 E1].
    assert (P1 : forall v, In v (set_union L0 vs) -> cget I1 v = 0).
    { intros v Iv. apply set_union_In in Iv. destruct (Bs v) as [(_ & B2 & _ & B4)|(_ & B2 & _)]; [|exact B2].
      destruct Iv as [Iv|Iv]; [rewrite B2; auto|]. exfalso. apply B4, in_app_iff. auto. }
    apply IH in R; [|intros t0 It; apply CO; right; exact It| |exact W1|apply set_union_nodup; exact N0|exact P1].
    2:{ intros v. rewrite E1. specialize (Hle v). rewrite Et in Hle. destruct (Bs v) as [(B1 & B2 & _)|(B1 & B2 & B3 & B4 & _)]; lia. }
    destruct R as (Wr & Nr & Zr & ins' & St' & Nd' & Di & Rs).
    split; [exact Wr|]. split; [exact Nr|]. split; [exact Zr|]. exists (ins ++ ins'). split; [constructor; assumption|].
    assert (X : forall v, In v ins -> ~ In v ins' /\ ~ In v L1).
    { intros v Iv. destruct (Bs v) as [(_ & _ & _ & B4)|(B1 & B2 & B3 & B4 & B5)]; [exfalso; apply B4, in_app_iff; auto|].
      destruct (Rs v) as [(_ & _ & R3 & R4)|(R1 & R2 & _)]; [|lia]. split; [exact R4|]. rewrite R3, set_union_In. intros [I0|Iv'].
      - apply Z0 in I0. lia.
      - rewrite NoDup_app_iff in Nd. destruct Nd as (_ & _ & Nd). apply (Nd v Iv Iv'). }
    assert (Nin : NoDup ins) by (rewrite NoDup_app_iff in Nd; apply Nd).
    split; [rewrite NoDup_app_iff; split; [exact Nin|]; split; [exact Nd'|]; intros v Iv; apply X; exact Iv|].
    split; [intros v Iv; apply in_app_iff in Iv as [Iv|Iv]; [apply X; exact Iv|apply Di; exact Iv]|].
    intros v. rewrite Et. specialize (Hle v). rewrite Et in Hle.
    destruct (Bs v) as [(B1 & B2 & B3 & B4)|(B1 & B2 & B3 & B4 & B5)].
    + destruct (Rs v) as [(R1 & R2 & R3 & R4)|(R1 & R2 & R3 & R4 & R5 & R6)].
      * left. rewrite R1, E1, R2, B1, B2. split; [lia|]. split; [reflexivity|]. rewrite R3, set_union_In, in_app_iff.
        rewrite in_app_iff in B4. tauto.
      * right. rewrite E1 in R3. rewrite B2 in R2. rewrite R3, R4. rewrite set_union_In in R6. repeat split; try lia; try tauto.
        rewrite <- app_assoc, in_app_iff. right. exact R5.
    + destruct (Rs v) as [(R1 & R2 & R3 & R4)|(R1 & R2 & R3 & R4 & R5 & R6)]; [|lia].
      right. rewrite E1 in R1. repeat split; try lia.
      * rewrite <- app_assoc, !in_app_iff, R3, set_union_In. rewrite in_app_iff in B5. tauto.
      * intros I0. apply Z0 in I0. lia.
Qed.
Lemma store_block_inv t : forall I t' L comb I', counts_ok t -> (forall v, total v t <= cget I v) ->
  store_block order within t I = Ok (t', L, comb, I') -> post t t' I I' comb L.
Proof.
  induction t as [b ch IH] using ptree_ind'. intros I t' L comb I' CO Hle H. rewrite store_block_eq in H.
  apply bind_ok in H as ([[[ch' intro] combined] I1] & R & H).
  destruct (substract_zero I1 (cplus combined (pb_count b))) as [[zs I2] comb2] eqn:Z.
  apply bind_ok in H as ([b' L'] & S & H). injection H as <- <- <- <-.
  assert (Et : forall v, total v (PNode b ch) = cget (pb_count b) v + totals v ch) by reflexivity.
  apply (store_list_inv ch IH) in R.
  2:{ intros t It b0 Ib. apply CO. cbn. right. apply in_concat. exists (tree_blocks t). split; [apply in_map; exact It|exact Ib]. }
  2:{ intros v. specialize (Hle v). rewrite Et in Hle. unfold cget at 1. cbn. lia. }
  2:{ apply cwf_nil. } 2:{ constructor. } 2:{ intros v []. }
  destruct R as (Wc & Nr & Zr & ins & St & Nd & Di & Rs).
  assert (Wb : cwf (pb_count b)) by (apply CO; left; reflexivity).
  destruct (cplus_spec (pb_count b) combined Wb Wc) as [W1 E1].
  destruct (substract_zero_spec _ _ _ _ _ W1 Z) as (Nz & Zi & Zl & W2 & Z2).
  apply store_here_spec in S as [S ->]. set (vs := stores_at (set_union intro zs) b) in *.
  split; [exact W2|]. exists (vs ++ ins). split; [constructor; assumption|].
  assert (Iv : forall v, In v vs -> In v (set_union intro zs)) by (intros v Q; apply stores_at_incl in Q; apply Q).
  assert (Dz : forall v, In v ins -> ~ In v (set_union intro zs)).
  { intros v Q. rewrite set_union_In, Zi. intros [Q'|[Q1 Q2]]; [apply (Di v Q Q')|]. destruct (Rs v) as [(_ & _ & _ & R4)|(R1 & R2 & R3 & R4 & _)]; [contradiction|].
    lia. }
  assert (Nu : NoDup (set_union intro zs)) by (apply set_union_nodup; exact Nr).
  split.
  { rewrite <- app_assoc, NoDup_app_iff. split; [apply stores_at_nodup; exact Nu|]. split.
    - rewrite NoDup_app_iff. split; [exact Nd|]. split; [apply NoDup_filter; exact Nu|]. intros v Q Q'. apply filter_In in Q' as [Q' _]. apply (Dz v Q Q').
    - intros v Q Q'. apply in_app_iff in Q' as [Q'|Q']; [apply (Dz v Q'); auto|]. apply filter_In in Q' as [_ Q']. apply mem_In in Q. fold vs in Q'. rewrite Q in Q'. discriminate. }
  assert (El : forall v, In v ((vs ++ ins) ++ filter (fun v => negb (mem v vs)) (set_union intro zs)) <-> In v ins \/ In v intro \/ In v zs).
  { intros v. rewrite !in_app_iff, filter_In, set_union_In. specialize (Iv v). rewrite set_union_In in Iv.
    destruct (mem v vs) eqn:M; [apply mem_In in M|apply mem_false in M]; cbn; intuition congruence. }
  intros v. unfold state. rewrite El, Et, Zl, Z2, E1. specialize (Hle v). rewrite Et in Hle. specialize (Zi v). rewrite E1 in Zi.
  assert (C0 : cget [] v = 0) by reflexivity.
  destruct (Rs v) as [(R1 & R2 & R3 & R4)|(R1 & R2 & R3 & R4 & R5 & R6)]; rewrite C0 in *; cbn [Nat.add] in *.
  - rewrite R1, R2 in *. destruct (mem v zs) eqn:M; [apply mem_In in M|apply mem_false in M].
    + right. destruct (proj1 Zi M) as [Q1 Q2]. repeat split; try lia. auto.
    + left. repeat split; try lia.
      * destruct (Nat.eq_dec (cget (pb_count b) v + totals v ch) 0) as [e|e]; [left; exact e|right].
        destruct (Nat.eq_dec (cget (pb_count b) v + totals v ch) (cget I v)) as [e'|e']; [|lia]. exfalso. apply M, Zi. lia.
      * cbn in R3. tauto.
  - rewrite R3, R4 in *. assert (Zc : cget (pb_count b) v = 0) by lia.
    right. rewrite in_app_iff in R5. destruct (mem v zs); repeat split; try lia; tauto.
Qed.
End S.

(* --- accesses --- *)
Lemma defined_before_app_intro l l' : forall s, defined_before s l -> defined_before (rev (stores l) ++ s) l' -> defined_before s (l ++ l').
Proof.
  induction l as [|[x|x] l IH]; intros s H H'; cbn [app defined_before stores] in *; [exact H'| |].
  - apply IH; [exact H|]. cbn [rev] in H'. rewrite <- app_assoc in H'. exact H'.
  - destruct H as [H1 H2]. split; [exact H1|]. apply IH; assumption.
Qed.
Lemma ids_access_app l1 l2 li : ids_access (l1 ++ l2) li -> exists a b, li = a ++ b /\ ids_access l1 a /\ ids_access l2 b.
Proof.
  revert li. induction l1 as [|id l1 IH]; intros li H; cbn [app] in H; [exists [], li; split; [reflexivity|split; [constructor|exact H]]|].
  inversion H; subst;
    match goal with Q : ids_access (l1 ++ l2) _ |- _ => destruct (IH _ Q) as (a & b & -> & A & B) end.
  - exists (Load x :: a), b. split; [reflexivity|]. split; [constructor; exact A|exact B].
  - exists (Store x :: a), b. split; [reflexivity|]. split; [constructor; exact A|exact B].
  - exists (Store x :: a), b. split; [reflexivity|]. split; [constructor; assumption|exact B].
  - exists a, b. split; [reflexivity|]. split; [constructor; assumption|exact B].
Qed.
Lemma ids_access_join l1 l2 a b : ids_access l1 a -> ids_access l2 b -> ids_access (l1 ++ l2) (a ++ b).
Proof. intros H. revert b. induction H; intros b0 B; cbn [app]; [exact B|..]; constructor; auto. Qed.
Lemma ids_access_load ids li x : ids_access ids li -> In (Load x) li -> In (vget_id x) ids.
Proof.
  induction 1 as [|y ids l H IH|y ids l H IH|y p ids l C1 C2 H IH|id ids l P C H IH]; cbn; [tauto|..].
  - intros [E|I]; [injection E as ->; auto|auto].
  - intros [E|I]; [discriminate|auto].
  - intros [E|I]; [discriminate|auto].
  - auto.
Qed.
Lemma defined_before_less K K' v l : (forall x, In x K -> In x K' \/ x = v) -> ~ In (Load v) l -> defined_before K l -> defined_before K' l.
Proof.
  revert K K'. induction l as [|[x|x] l IH]; intros K K' S N H; cbn in *; [exact I| |].
  - apply (IH (x :: K)); [|tauto|exact H]. intros y [->|Iy]; [left; left; reflexivity|]. destruct (S y Iy); [left; right; assumption|auto].
  - destruct H as [H1 H2]. split; [destruct (S x H1) as [Q|Q]; [exact Q|]; subst; exfalso; apply N; left; reflexivity|]. apply (IH K); auto.
Qed.

Definition comma_free (v : string) : Prop := contains "," v = false.
Lemma digits_no_comma u : contains "," (DecimalString.NilEmpty.string_of_uint u) = false.
Proof. induction u; [reflexivity|..]; cbn [DecimalString.NilEmpty.string_of_uint contains]; rewrite IHu; destruct (DecimalString.NilEmpty.string_of_uint u); reflexivity. Qed.
Lemma str_nat_no_comma p : contains "," (str_nat p) = false.
Proof.
  unfold str_nat, DecimalString.NilZero.string_of_uint. destruct (Nat.to_uint p) eqn:E; [reflexivity|..]; rewrite <- E; apply digits_no_comma.
Qed.

Lemma in_firstn {A} (z : A) l : forall m, In z (firstn m l) <-> exists j, j < m /\ nth_error l j = Some z.
Proof.
  induction l as [|y l IH]; intros m.
  - rewrite firstn_nil. split; [intros []|]. intros (j & _ & N). destruct j; discriminate N.
  - destruct m as [|m]; cbn [firstn]; [split; [intros []|intros (j & Lj & _); lia]|]. cbn [In]. rewrite IH. split.
    + intros [-> | (j & Lj & N)]; [exists 0; split; [lia|reflexivity]|]. exists (S j). split; [lia|exact N].
    + intros ([|j] & Lj & N); [injection N as ->; left; reflexivity|]. right. exists j. split; [lia|exact N].
Qed.
(** nothing in the ids loads a variable before the position where the
    reachability would store it *)
Definition reach_first (ids : list string) (d : reach_map) : Prop :=
  forall x p k l, lookup x d = Some (p, k, l) -> ~ In (vget_id x) (firstn k ids).
Lemma insert_first v b b' : insert_dup_vset v b = Ok b' -> reach_first (pb_ids b) (pb_reach b) ->
  reach_first (pb_ids b') (pb_reach b') /\
  exists l1 p l2, pb_ids b = l1 ++ l2 /\ pb_ids b' = l1 ++ dup_vset_id v (str_nat p) :: l2 /\ ~ In (vget_id v) l1.
Proof.
  unfold insert_dup_vset. intros H K. apply bind_ok in H as ([[p k] l] & L & H). apply of_option_ok in L.
  change (("DUP-VSET(" ++ v ++ "," ++ str_nat p ++ ")")%string) with (dup_vset_id v (str_nat p)) in H.
  match type of H with Ok ?X = _ => assert (Eb : b' = X) by congruence end. subst b'. clear H.
  cbn [pb_ids pb_reach with_ids]. set (ids := pb_ids b) in *. pose proof (K _ _ _ _ L) as NG. split.
  - intros x p' k' l' Q. rewrite lookup_shift in Q. destruct (lookup x (pb_reach b)) as [[[p0 k0] l0]|] eqn:Lx; [|discriminate].
    pose proof (K _ _ _ _ Lx) as NG0. injection Q as <- <- <-. intros I. apply NG0.
    apply in_firstn in I as (j & Lj & N). apply in_firstn.
    destruct (Nat.lt_ge_cases j (length (firstn k ids))) as [Q|Q].
    + rewrite nth_error_app1 in N by exact Q. rewrite firstn_length in Q. exists j.
      split; [destruct (Nat.leb_spec k k0); lia|]. rewrite <- (firstn_skipn k ids), nth_error_app1 by (rewrite firstn_length; lia). exact N.
    + rewrite nth_error_app2 in N by exact Q. destruct (j - length (firstn k ids)) as [|m] eqn:Em; [discriminate N|]. cbn [nth_error] in N.
      rewrite firstn_length in Em, Q. destruct (Nat.le_ge_cases k (length ids)) as [Lk|Lk]; [|rewrite skipn_all2 in N by lia; destruct m; discriminate N].
      exists (k + m). split; [destruct (Nat.leb_spec k k0); lia|]. rewrite <- (firstn_skipn k ids), nth_error_app2 by (rewrite firstn_length; lia).
      rewrite firstn_length. replace (k + m - Nat.min k (length ids)) with m by lia. exact N.
  - exists (firstn k ids), p, (skipn k ids). rewrite firstn_skipn. auto.
Qed.

Lemma inserts_access : forall vs b b' li K K' tl, for_each (fun b v => insert_dup_vset v b) vs b = Ok b' -> reach_first (pb_ids b) (pb_reach b) ->
  (forall v, In v vs -> comma_free v) -> ids_access (pb_ids b) li -> (forall x, In x K -> In x K' \/ In x vs) -> defined_before K (li ++ tl) ->
  exists li', ids_access (pb_ids b') li' /\ defined_before K' (li' ++ tl) /\ Permutation (stores li') (vs ++ stores li).
Proof.
  induction vs as [|v vs IH]; intros b b' li K K' tl H RF CF A S D; cbn [for_each] in H.
  - injection H as <-. exists li. split; [exact A|]. split; [|reflexivity]. eapply defined_before_incl; [|exact D]. intros x I. destruct (S x I) as [Q|[]]; exact Q.
  - apply bind_ok in H as (b1 & I & H). destruct (insert_first _ _ _ I RF) as (RF1 & l1 & p & l2 & E & E1 & NG).
    rewrite E in A. apply ids_access_app in A as (a & c & -> & A1 & A2).
    assert (A' : ids_access (pb_ids b1) (a ++ Store v :: c)).
    { rewrite E1. apply ids_access_join; [exact A1|]. constructor; [apply CF; left; reflexivity|apply str_nat_no_comma|exact A2]. }
    destruct (IH b1 b' (a ++ Store v :: c) (filter (fun x => negb (x =? v)) K) K' tl H RF1) as (li' & L1 & L2 & L3).
    + intros x Ix. apply CF. right. exact Ix.
    + exact A'.
    + intros x Ix. apply filter_In in Ix as [Ix Nx]. destruct (S x Ix) as [Q|[Q|Q]]; [auto| |auto]. subst. rewrite String.eqb_refl in Nx. discriminate.
    + rewrite <- app_assoc in D |- *. cbn [app]. apply defined_before_app in D as [D1 D2]. apply defined_before_app_intro.
      * apply (defined_before_less K _ v); [|intros Q; apply NG; eapply ids_access_load; eassumption|exact D1].
        intros x Ix. destruct (String.eqb_spec x v) as [->|N]; [auto|]. left. apply filter_In. split; [exact Ix|]. destruct (String.eqb_spec x v); [contradiction|reflexivity].
      * cbn [defined_before]. eapply defined_before_incl; [|exact D2]. intros x Ix. apply in_app_iff in Ix as [Ix|Ix]; [right; apply in_app_iff; auto|].
        destruct (String.eqb_spec x v) as [->|N]; [left; reflexivity|]. right. apply in_app_iff. right. apply filter_In. split; [exact Ix|].
        destruct (String.eqb_spec x v); [contradiction|reflexivity].
    + exists li'. split; [exact L1|]. split; [exact L2|]. rewrite L3. rewrite !stores_app. cbn [stores app].
      rewrite <- Permutation_middle, <- Permutation_middle. reflexivity.
Qed.
Lemma insert_same v b b' : insert_dup_vset v b = Ok b' -> pb_solve b' = pb_solve b /\ pb_phis b' = pb_phis b /\ pb_copies b' = pb_copies b /\ pb_name b' = pb_name b /\ pb_count b' = pb_count b.
Proof.
  unfold insert_dup_vset. intros H. apply bind_ok in H as ([[p k] l] & _ & H).
  match type of H with Ok ?X = _ => assert (Eb : b' = X) by congruence end. subst b'. repeat split; reflexivity.
Qed.
Lemma inserts_same : forall vs b b', for_each (fun b v => insert_dup_vset v b) vs b = Ok b' ->
  pb_solve b' = pb_solve b /\ pb_phis b' = pb_phis b /\ pb_copies b' = pb_copies b /\ pb_name b' = pb_name b /\ pb_count b' = pb_count b.
Proof.
  induction vs as [|v vs IH]; intros b b' H; cbn [for_each] in H; [injection H as <-; repeat split; reflexivity|].
  apply bind_ok in H as (b1 & I & H). destruct (insert_same _ _ _ I) as (-> & -> & -> & -> & ->) || idtac.
  destruct (IH _ _ H) as (-> & -> & -> & -> & ->). apply (insert_same _ _ _ I).
Qed.
