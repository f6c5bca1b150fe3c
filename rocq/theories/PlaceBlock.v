(** The stores inserted in a block that does not end in a function call are
    right; in a block that does they may store another value. *)
From Coq Require Import Permutation.
From Verif Require Import Base Lexical LexicalProofs SymExecModel AsmModel DepsModel SpecModel UtilModel WebModel UnifyProps RegModel RegSpec RegProps
  PlaceModel PlaceSpec.
Open Scope string_scope. Open Scope list_scope.

(* --- runs --- *)
Lemma runs_app ui a b s s' : runs ui (a ++ b) s s' <-> exists m, runs ui a s m /\ runs ui b m s'.
Proof.
  revert s. induction a as [|id a IH]; intros s; cbn [app].
  - split; [intros H; exists s; split; [constructor|exact H]|]. intros (m & H & H'). inversion H. subst. exact H'.
  - split.
    + intros H. inversion H as [|x p ids st st' N R|i ids st st1 st' E R]; subst; apply IH in R as (m & R1 & R2); exists m; (split; [|exact R2]).
      * apply r_store; assumption.
      * eapply r_id; eassumption.
    + intros (m & H & H'). inversion H as [|x p ids st st' N R|i ids st st1 st' E R]; subst.
      * apply r_store; [exact N|]. apply IH. eauto.
      * eapply r_id; [exact E|]. apply IH. eauto.
Qed.
Lemma dup_vset_stuck x p st ui st' : execute_instr_id (dup_vset_id x p) st ui <> Ok st'.
Proof.
  unfold execute_instr_id. change (String.eqb (dup_vset_id x p) "POP") with false. cbv iota.
  destruct (contains "SWAP" (dup_vset_id x p)) eqn:C.
  - destruct (py_int (sdrop 4 (dup_vset_id x p))) as [z|] eqn:P; cbn [of_option bind]; [|discriminate].
    pose proof (swap_prefix _ _ C P) as Q. discriminate Q.
  - change (contains "DUP" (dup_vset_id x p)) with true. cbv iota.
    destruct (py_int (sdrop 3 (dup_vset_id x p))) as [z|] eqn:P; cbn [of_option bind]; [|discriminate]. exfalso.
    change (sdrop 3 (dup_vset_id x p)) with ("-VSET(" ++ x ++ "," ++ p ++ ")")%string in P. unfold py_int in P.
    assert (I : In "V"%char (list_ascii_of_string ("-VSET(" ++ x ++ "," ++ p ++ ")")%string)) by (right; left; reflexivity).
    destruct (In_strip _ _ I) as [Q|Q]; [discriminate|].
    destruct (strip (list_ascii_of_string ("-VSET(" ++ x ++ "," ++ p ++ ")")%string)) as [|c l]; [discriminate|].
    destruct (Ascii.eqb_spec c "-"%char) as [->|N1].
    + destruct Q as [Q|Q]; [discriminate|]. destruct (py_digits l 0 false) eqn:D; [|discriminate].
      destruct (py_digits_chars _ _ _ _ D _ Q) as [R|R]; [apply R; reflexivity|discriminate].
    + destruct (Ascii.eqb_spec c "+"%char) as [->|N2].
      * destruct Q as [Q|Q]; [discriminate|]. destruct (py_digits_chars _ _ _ _ P _ Q) as [R|R]; [apply R; reflexivity|discriminate].
      * destruct (py_digits_chars _ _ _ _ P _ Q) as [R|R]; [apply R; reflexivity|discriminate].
Qed.
Lemma runs_det ui ids s s1 s2 : runs ui ids s s1 -> runs ui ids s s2 -> s1 = s2.
Proof.
  intros H. revert s2. induction H as [st|x p ids st st' N R IH|id ids st m st' E R IH]; intros s2 H2.
  - inversion H2. reflexivity.
  - inversion H2 as [|x' p' ids' st0 st'0 N' R' E1 E2|id' ids' st0 m' st'0 E' R']; subst; [apply IH; assumption|].
    exfalso. eapply dup_vset_stuck. exact E'.
  - inversion H2 as [|x' p' ids' st0 st'0 N' R' E1 E2|id' ids' st0 m' st'0 E' R']; subst.
    + exfalso. eapply dup_vset_stuck. exact E.
    + apply IH. replace m with m' by congruence. exact R'.
Qed.
Lemma run_symbolic_runs ui ids s s' : run_symbolic ids ui s = Ok s' -> runs ui ids s s'.
Proof.
  unfold run_symbolic. revert s. induction ids as [|id ids IH]; cbn [for_each]; intros s H.
  - injection H as <-. constructor.
  - apply bind_ok in H as (m & E & H). eapply r_id; [exact E|]. apply IH. exact H.
Qed.

(* --- what the reachability records --- *)
Definition reach_map := list (string * (nat * nat * bool)).
Definition reach_ok (depth : nat) (ui : list instr) (ids src : list string) (d : reach_map) : Prop :=
  forall x p k l, lookup x d = Some (p, k, l) ->
    k <= length ids /\ p < depth /\ (exists st, runs ui (firstn k ids) src st /\ nth_error st p = Some x)
    /\ ~ In (vget_id x) (firstn k ids).

Lemma update_reachable_in depth st pos d l forb x e : lookup x (update_reachable depth st pos d l forb) = Some e ->
  (exists i, e = (i, pos, l) /\ nth_error st i = Some x /\ i < depth /\ ~ In x forb) \/ lookup x d = Some e.
Proof.
  unfold update_reachable.
  assert (G : forall l0 (s : nat) d0, (forall j y, nth_error l0 j = Some y -> nth_error st (s + j) = Some y /\ s + j < depth) ->
    lookup x (fold_left (fun d ie => if mem (snd ie) forb then d else dict_set (snd ie) (fst ie, pos, l) d) (combine (seq s (length l0)) l0) d0) = Some e ->
    (exists i, e = (i, pos, l) /\ nth_error st i = Some x /\ i < depth /\ ~ In x forb) \/ lookup x d0 = Some e).
  { intros l0. induction l0 as [|y l0 IH]; intros s d0 Q H; cbn [length seq combine fold_left] in H; [right; exact H|].
    apply IH in H.
    - destruct H as [H|H]; [left; exact H|]. cbn [fst snd] in H. destruct (mem y forb) eqn:M; [right; exact H|].
      rewrite lookup_dict_set in H. destruct (String.eqb_spec y x) as [->|N]; [|right; exact H].
      left. injection H as <-. destruct (Q 0 x eq_refl) as [Q1 Q2]. rewrite Nat.add_0_r in Q1, Q2. exists s. repeat split; auto.
      apply mem_false. exact M.
    - intros j z Hz. replace (S s + j) with (s + S j) by lia. apply Q. exact Hz. }
  apply G. intros j y Hy. cbn [Nat.add].
  assert (Lj : j < length (firstn depth st)) by (apply nth_error_Some; congruence). rewrite firstn_length in Lj. split; [|lia].
  rewrite <- (firstn_skipn depth st), nth_error_app1; [exact Hy|]. rewrite firstn_length. lia.
Qed.
Lemma update_reachable_keys depth st pos d l forb x :
  In x (map fst d) -> In x (map fst (update_reachable depth st pos d l forb)).
Proof.
  unfold update_reachable. revert d. generalize (combine (seq 0 (length (firstn depth st))) (firstn depth st)).
  intros es. induction es as [|[i y] es IH]; intros d H; cbn [fold_left]; [exact H|]. apply IH. cbn [fst snd].
  destruct (mem y forb); [exact H|]. revert H. clear. induction d as [|[k v] d IH]; cbn; [tauto|].
  destruct (k =? y); cbn; tauto.
Qed.

Lemma reach_ids_ok depth ui ids src call : forall rest pre st d forb st' d' forb', ids = pre ++ rest ->
  runs ui pre src st -> reach_ok depth ui ids src d -> (forall x, In (vget_id x) pre -> In x forb) ->
  reach_ids depth (length ids) call rest ui (length pre) st d forb = Ok (st', d', forb') ->
  reach_ok depth ui ids src d' /\ run_symbolic rest ui st = Ok st' /\ (forall x, In (vget_id x) ids -> In x forb').
Proof.
  induction rest as [|id rest IH]; intros pre st d forb st' d' forb' E R K F H; cbn [reach_ids] in H.
  - injection H as <- <- <-. rewrite app_nil_r in E. subst. split; [exact K|]. split; [reflexivity|exact F].
  - apply bind_ok in H as (m & X & H).
    set (forb1 := if startswith "VGET" id then match extract_value id with Some v => v :: forb | None => forb end else forb) in *.
    assert (E' : ids = (pre ++ [id]) ++ rest) by (rewrite <- app_assoc; exact E).
    assert (R' : runs ui (pre ++ [id]) src m) by (apply runs_app; exists st; split; [exact R|]; eapply r_id; [exact X|constructor]).
    assert (F' : forall x, In (vget_id x) (pre ++ [id]) -> In x forb1).
    { intros x I. apply in_app_iff in I as [I|[I|[]]].
      - apply F in I. unfold forb1. destruct (startswith "VGET" id); [destruct (extract_value id); [right|]|]; exact I.
      - unfold forb1. rewrite I. change (startswith "VGET" (vget_id x)) with true. rewrite extract_vget. left. reflexivity. }
    replace (S (length pre)) with (length (pre ++ [id])) in H by (rewrite app_length; cbn; lia).
    apply (IH (pre ++ [id])) in H; auto.
    + destruct H as (H1 & H2 & H3). split; [exact H1|]. split; [|exact H3]. unfold run_symbolic. cbn [for_each]. rewrite X. exact H2.
    + intros x p k l Q. apply update_reachable_in in Q as [(i & Q & N & Li & NF)|Q]; [|apply (K _ _ _ _ Q)].
      injection Q as -> -> ->. assert (Ef : firstn (length (pre ++ [id])) ids = pre ++ [id]).
      { rewrite E', firstn_app, Nat.sub_diag, firstn_all. apply app_nil_r. }
      rewrite Ef. split; [rewrite E', !app_length; lia|]. split; [exact Li|]. split; [exists m; auto|]. intros I. apply NF, F', I.
Qed.
Lemma reachability_ok depth ids src ui d : reachability_from_greedy depth ids src ui None = Ok d ->
  reach_ok depth ui ids src d /\ exists st, run_symbolic ids ui src = Ok st.
Proof.
  unfold reachability_from_greedy. intros H. apply bind_ok in H as ([[st d'] forb] & H & E). injection E as <-.
  apply (reach_ids_ok depth ui ids src false ids []) in H; auto.
  - destruct H as (H1 & H2 & _). eauto.
  - constructor.
  - intros x p k l Q. apply update_reachable_in in Q as [(i & Q & N & Li & NF)|Q]; [|discriminate].
    injection Q as -> -> ->. split; [lia|]. split; [exact Li|]. split; [exists src; split; [constructor|exact N]|]. intros [].
Qed.

(* --- insertion --- *)
Lemma lookup_shift (k : nat) x (d : reach_map) : lookup x (map (fun e => let '(x, (p', k', l')) := e in (x, (p', if (k <=? k')%nat then k' + 1 else k', l'))) d)
  = match lookup x d with Some (p', k', l') => Some (p', if (k <=? k')%nat then k' + 1 else k', l') | None => None end.
Proof.
  induction d as [|[y [[p' k'] l']] d IH]; [reflexivity|]. cbn [map lookup]. destruct (y =? x); [reflexivity|exact IH].
Qed.
Lemma vget_not_dup x y p : vget_id x <> dup_vset_id y p.
Proof. discriminate. Qed.
Lemma insert_ok depth v b b' ui src : insert_dup_vset v b = Ok b' -> reach_ok depth ui (pb_ids b) src (pb_reach b) ->
  reach_ok depth ui (pb_ids b') src (pb_reach b') /\
  (forall st, runs ui (pb_ids b) src st -> runs ui (pb_ids b') src st) /\
  exists l1 p l2, pb_ids b = l1 ++ l2 /\ pb_ids b' = l1 ++ dup_vset_id v (str_nat p) :: l2 /\ p < depth /\ ~ In (vget_id v) l1.
Proof.
  unfold insert_dup_vset. intros H K. apply bind_ok in H as ([[p k] l] & L & H). apply of_option_ok in L.
  change (("DUP-VSET(" ++ v ++ "," ++ str_nat p ++ ")")%string) with (dup_vset_id v (str_nat p)) in H.
  match type of H with Ok ?X = _ => assert (Eb : b' = X) by congruence end. subst b'. clear H.
  cbn [pb_ids pb_reach with_ids].
  destruct (K _ _ _ _ L) as (Lk & Lp & (st & R & N) & NG). set (ids := pb_ids b) in *.
  assert (Lf : length (firstn k ids) = k) by (rewrite firstn_length; lia).
  assert (E : forall a, firstn (k + a) ids = firstn k ids ++ firstn a (skipn k ids)).
  { intros a. rewrite <- (firstn_skipn k ids) at 1. rewrite firstn_app, Lf. replace (k + a - k) with a by lia.
    rewrite firstn_all2 by lia. reflexivity. }
  split; [|split].
  - intros x p' k' l' Q. rewrite lookup_shift in Q. destruct (lookup x (pb_reach b)) as [[[p0 k0] l0]|] eqn:Lx; [|discriminate].
    destruct (K _ _ _ _ Lx) as (Lk0 & Lp0 & (st0 & R0 & N0) & NG0). injection Q as <- <- <-.
    rewrite app_length. cbn [length]. rewrite skipn_length, Lf. split; [destruct (k <=? k0)%nat; lia|]. split; [exact Lp0|].
    destruct (Nat.leb_spec k k0) as [Q|Q].
    + assert (Ef : firstn (k0 + 1) (firstn k ids ++ dup_vset_id v (str_nat p) :: skipn k ids)
        = firstn k ids ++ dup_vset_id v (str_nat p) :: firstn (k0 - k) (skipn k ids)).
      { rewrite firstn_app, Lf. rewrite firstn_all2 by lia. replace (k0 + 1 - k) with (S (k0 - k)) by lia. reflexivity. }
      rewrite Ef. assert (E0 : firstn k0 ids = firstn k ids ++ firstn (k0 - k) (skipn k ids)) by (rewrite <- E; f_equal; lia).
      rewrite E0 in R0, NG0. apply runs_app in R0 as (m & R1 & R2). rewrite (runs_det _ _ _ _ _ R1 R) in R2. split.
      * exists st0. split; [|exact N0]. apply runs_app. exists st. split; [exact R|]. apply r_store; assumption.
      * intros I. apply in_app_iff in I as [I|[I|I]]; [apply NG0, in_app_iff; auto|discriminate I|apply NG0, in_app_iff; auto].
    + assert (Ef : firstn k0 (firstn k ids ++ dup_vset_id v (str_nat p) :: skipn k ids) = firstn k0 ids).
      { rewrite firstn_app, Lf. replace (k0 - k) with 0 by lia. rewrite app_nil_r, firstn_firstn. f_equal. lia. }
      rewrite Ef. split; [eauto|exact NG0].
  - intros s Rs. rewrite <- (firstn_skipn k ids) in Rs. apply runs_app in Rs as (m & R1 & R2).
    rewrite (runs_det _ _ _ _ _ R1 R) in R2. apply runs_app. exists st. split; [exact R|]. apply r_store; assumption.
  - exists (firstn k ids), p, (skipn k ids). rewrite firstn_skipn. repeat split; auto.
Qed.

Lemma with_stores_refl depth ids : with_stores depth ids [] ids.
Proof. induction ids; constructor; assumption. Qed.
Lemma with_stores_insert depth ids vs l1 l2 v p : with_stores depth ids vs (l1 ++ l2) -> p < depth ->
  exists vs', Permutation vs' (v :: vs) /\ with_stores depth ids vs' (l1 ++ dup_vset_id v (str_nat p) :: l2).
Proof.
  revert ids vs. induction l1 as [|id l1 IH]; intros ids vs H Lp; cbn [app] in *.
  - exists (v :: vs). split; [reflexivity|]. constructor; assumption.
  - inversion H as [|i ids0 vs0 ids' H1|x q ids0 vs0 ids' Q H1]; subst.
    + destruct (IH _ _ H1 Lp) as (vs' & P & W). exists vs'. split; [exact P|]. constructor. exact W.
    + destruct (IH _ _ H1 Lp) as (vs' & P & W). exists (x :: vs'). split; [rewrite P; apply perm_swap|]. constructor; assumption.
Qed.
Lemma stored_first_insert x l1 l2 y p : stored_first x (l1 ++ l2) -> stored_first x (l1 ++ dup_vset_id y p :: l2).
Proof.
  intros (a & q & c & E & N). revert a E N. induction l1 as [|id l1 IH]; intros a E N; cbn [app] in *.
  - exists (dup_vset_id y p :: a), q, c. cbn [app]. rewrite E. split; [reflexivity|]. intros [I|I]; [discriminate I|contradiction].
  - destruct a as [|z a]; cbn [app] in E; injection E as -> E.
    + exists [], q, (l1 ++ dup_vset_id y p :: l2). split; [reflexivity|intros []].
    + destruct (IH a E) as (a' & q' & c' & E' & N'); [intros I; apply N; right; exact I|].
      exists (z :: a'), q', c'. cbn [app]. rewrite E'. split; [reflexivity|]. intros [->|I]; [apply N; left; reflexivity|contradiction].
Qed.

Lemma inserts_ok depth ui src : forall vs b b' ids0 vs0, for_each (fun b v => insert_dup_vset v b) vs b = Ok b' ->
  reach_ok depth ui (pb_ids b) src (pb_reach b) -> with_stores depth ids0 vs0 (pb_ids b) -> (forall x, In x vs0 -> stored_first x (pb_ids b)) ->
  reach_ok depth ui (pb_ids b') src (pb_reach b') /\ (forall st, runs ui (pb_ids b) src st -> runs ui (pb_ids b') src st) /\
  (exists vs', Permutation vs' (vs ++ vs0) /\ with_stores depth ids0 vs' (pb_ids b')) /\ forall x, In x (vs ++ vs0) -> stored_first x (pb_ids b').
Proof.
  induction vs as [|v vs IH]; intros b b' ids0 vs0 H K W S; cbn [for_each] in H.
  - injection H as <-. split; [exact K|]. split; [auto|]. split; [|exact S]. exists vs0. auto.
  - apply bind_ok in H as (b1 & I & H). destruct (insert_ok _ _ _ _ _ _ I K) as (K1 & R1 & l1 & p & l2 & E & E1 & Lp & NG).
    rewrite E in W. destruct (with_stores_insert _ _ _ _ _ v p W Lp) as (vs1 & P1 & W1). rewrite <- E1 in W1.
    destruct (IH _ _ _ _ H K1 W1) as (K2 & R2 & (vs2 & P2 & W2) & S2).
    + intros x Ix. apply (Permutation_in _ P1) in Ix as [<-|Ix].
      * exists l1, p, l2. auto.
      * rewrite E1. apply stored_first_insert. rewrite <- E. apply S. exact Ix.
    + split; [exact K2|]. split; [intros st Rs; apply R2, R1, Rs|]. split.
      * exists vs2. split; [|exact W2]. rewrite P2, P1. cbn [app]. apply Permutation_sym, Permutation_middle.
      * intros x Ix. apply S2. apply in_app_iff. cbn [app] in Ix. destruct Ix as [<-|Ix]; [right; apply (Permutation_in _ (Permutation_sym P1)); left; reflexivity|].
        apply in_app_iff in Ix as [Ix|Ix]; [left; exact Ix|]. right. apply (Permutation_in _ (Permutation_sym P1)). right. exact Ix.
Qed.

(** C37.  In a block that does not end in a function call: whatever values are
    stored, in whatever order, the ids are those of the block plus one store per
    value; every store finds its value at the position it names, at a depth a DUP
    reaches; the stores change nothing for the rest of the block; and they come
    before the loads of the same value. *)
Theorem inserted_stores_right_partial : forall depth b vs b',
  pb_call b = None ->
  reachability_from_greedy depth (pb_ids b) (pb_src b) (pb_instrs b) (pb_call b) = Ok (pb_reach b) ->
  for_each (fun b v => insert_dup_vset v b) vs b = Ok b' ->
  (exists st, run_symbolic (pb_ids b) (pb_instrs b) (pb_src b) = Ok st /\ runs (pb_instrs b) (pb_ids b') (pb_src b) st)
  /\ (exists vs', Permutation vs' vs /\ with_stores depth (pb_ids b) vs' (pb_ids b'))
  /\ (forall x, In x vs -> stored_first x (pb_ids b')).
Proof.
  intros depth b vs b' C R H. rewrite C in R. destruct (reachability_ok _ _ _ _ _ R) as (K & st & E).
  destruct (inserts_ok depth (pb_instrs b) (pb_src b) vs b b' (pb_ids b) [] H K) as (_ & Rn & W & S).
  - apply with_stores_refl.
  - intros x [].
  - rewrite app_nil_r in W, S. split; [|auto]. exists st. split; [exact E|]. apply Rn, run_symbolic_runs, E.
Qed.
Print Assumptions inserted_stores_right_partial.

(* --- concrete cases --- *)
Definition ptag (id x : string) : instr :=
  {| i_id := id; i_disasm := "PUSH [TAG]"; i_inpt := []; i_outpt := [x]; i_comm := false; i_storage := false; i_value := None |}.
Definition op2 (id x y z : string) : instr :=
  {| i_id := id; i_disasm := "ADD"; i_inpt := [x; y]; i_outpt := [z]; i_comm := true; i_storage := false; i_value := None |}.
Definition blk (name : string) (src : list string) (ui : list instr) call ids reach : pblock :=
  {| pb_name := name; pb_phis := []; pb_entries := []; pb_succs := []; pb_src := src; pb_instrs := ui; pb_call := call;
     pb_live_in := src; pb_declared := []; pb_ids := ids; pb_reach := reach; pb_unreach := []; pb_count := []; pb_copies := []; pb_solve := [] |}.
(** ids x, y -> x + y, then the sum again; x and z = x + y are stored *)
Definition sum_block : pblock :=
  blk "b" ["x"; "y"] [op2 "ADD_0" "x" "y" "z"] None ["DUP2"; "DUP2"; "ADD_0"; "VGET(q)"; "POP"]
    [("x", (1, 5, true)); ("y", (2, 5, true)); ("z", (0, 5, true))].
Example sum_stores : exists b', for_each (fun b v => insert_dup_vset v b) ["z"; "x"] sum_block = Ok b'
  /\ pb_ids b' = ["DUP2"; "DUP2"; "ADD_0"; "VGET(q)"; "POP"; "DUP-VSET(z,0)"; "DUP-VSET(x,1)"]
  /\ runs (pb_instrs sum_block) (pb_ids b') (pb_src sum_block) ["z"; "x"; "y"].
Proof.
  pose proof (inserted_stores_right_partial 16 sum_block ["z"; "x"]) as T.
  destruct (for_each (fun b v => insert_dup_vset v b) ["z"; "x"] sum_block) as [b'|] eqn:E; [|discriminate].
  destruct (T b' eq_refl eq_refl eq_refl) as ((st & R & Q) & _). exists b'. split; [reflexivity|]. split; [vm_compute in E; injection E as <-; reflexivity|].
  vm_compute in R. injection R as <-. exact Q.
Qed.

(** A block that ends in the call f(x) with one result r, the value a below: the
    stack before the call is [tag of f; return tag; x; a], after it [r; a].  The
    store of a is placed before the call with the position a has after it, and
    stores the return tag. *)
Definition call_block : pblock :=
  blk "b" ["x"; "a"] [ptag "PUSHTAG_0" "r_tag"; ptag "PUSHTAG_1" "f_tag"] (Some (3, ["r"])) ["PUSHTAG_0"; "PUSHTAG_1"]
    [("x", (2, 2, false)); ("a", (1, 3, true)); ("r_tag", (1, 2, false)); ("f_tag", (0, 2, false)); ("r", (0, 3, true))].
Theorem inserted_stores_call_refuted : exists b v b' st,
  reachability_from_greedy 16 (pb_ids b) (pb_src b) (pb_instrs b) (pb_call b) = Ok (pb_reach b)
  /\ insert_dup_vset v b = Ok b' /\ run_symbolic (pb_ids b) (pb_instrs b) (pb_src b) = Ok st
  /\ pb_ids b' = pb_ids b ++ [dup_vset_id v (str_nat 1)] /\ nth_error st 1 = Some "r_tag" /\ v <> "r_tag"
  /\ forall st', ~ runs (pb_instrs b) (pb_ids b') (pb_src b) st'.
Proof.
  exists call_block, "a". eexists. eexists. split; [reflexivity|]. split; [reflexivity|]. split; [reflexivity|]. split; [reflexivity|]. split; [reflexivity|].
  split; [discriminate|]. intros st' H.
  change (runs (pb_instrs call_block) (["PUSHTAG_0"; "PUSHTAG_1"] ++ [dup_vset_id "a" (str_nat 1)]) ["x"; "a"] st') in H.
  apply runs_app in H as (m & H1 & H2).
  assert (Em : m = ["f_tag"; "r_tag"; "x"; "a"]) by (eapply runs_det; [exact H1|apply run_symbolic_runs; reflexivity]). subst m.
  inversion H2 as [|x p ids st0 st1 N R E|id ids st0 m st1 E R]; subst.
  - clear H1 H2 R. destruct p as [|[|[|[|p]]]]; cbn in N; try (injection N as <-); try (vm_compute in E; discriminate E).
    destruct p; discriminate N.
  - eapply dup_vset_stuck. exact E.
Qed.
Print Assumptions inserted_stores_call_refuted.
