(** Colouring of the registers: along every path of the dominator tree, what is
    loaded is what was stored. *)
From Coq Require Import Relations Permutation.
From Verif Require LevelProps RemoveProps.
From Verif Require Import Base Lexical SymExecModel AsmModel DepsModel SpecModel UtilModel WebModel WebProps UtilProps UnifyProps RegModel RegSpec.
Open Scope string_scope. Open Scope list_scope.

Lemma mem_In x l : mem x l = true <-> In x l.
Proof.
  unfold mem. rewrite existsb_exists. split.
  - intros (y & I & E). apply String.eqb_eq in E. subst. exact I.
  - intros I. exists x. split; [exact I|apply String.eqb_refl].
Qed.
Lemma mem_false x l : mem x l = false <-> ~ In x l.
Proof. destruct (mem x l) eqn:E; [apply mem_In in E; split; [discriminate|contradiction]|]. split; [|reflexivity]. intros _ I. apply mem_In in I. congruence. Qed.

(* --- reading the text of the pseudo instructions --- *)
Lemma sinit_app s c : sinit (s ++ String c "")%string = s.
Proof. induction s as [|d s IH]; [reflexivity|]. cbn. destruct s; [reflexivity|]. cbn in *. rewrite IH. reflexivity. Qed.
Lemma sapp_assoc (a b c : string) : ((a ++ b) ++ c)%string = (a ++ (b ++ c))%string.
Proof. induction a; cbn; congruence. Qed.
Lemma extract_vget x : extract_value (vget_id x) = Some x.
Proof. unfold extract_value, vget_id. change (Some (sinit (x ++ ")")%string) = Some x). f_equal. apply sinit_app. Qed.
Lemma extract_vset x : extract_value (vset_id x) = Some x.
Proof. unfold extract_value, vset_id. change (Some (sinit (x ++ ")")%string) = Some x). f_equal. apply sinit_app. Qed.
Lemma split_first x s : contains "," x = false -> exists l, split_comma (x ++ "," ++ s)%string = x :: l.
Proof.
  induction x as [|c x IH]; intros H; [cbn; eauto|].
  change (prefix "," (String c x) || contains "," x = false) in H. apply orb_false_iff in H as [H1 H2].
  destruct (IH H2) as (l & E). exists l. change ((String c x ++ "," ++ s)%string) with (String c (x ++ "," ++ s)).
  cbn [split_comma]. rewrite E. cbn in H1. destruct (Ascii.eqb_spec c ","%char) as [->|N]; [|reflexivity].
  exfalso. revert H1. cbn. destruct x; discriminate.
Qed.
Lemma extract_dup x p : contains "," x = false -> extract_value (dup_vset_id x p) = Some x.
Proof.
  intros H. unfold extract_value, dup_vset_id.
  change (hd_error (split_comma (sinit (x ++ "," ++ p ++ ")")%string)) = Some x).
  replace (x ++ "," ++ p ++ ")")%string with ((x ++ "," ++ p) ++ String ")"%char "")%string by (rewrite !sapp_assoc; reflexivity).
  rewrite sinit_app. destruct (split_first x p H) as (l & ->). reflexivity.
Qed.

(** the accesses of an id, computed *)
Definition acc_id (id : string) : list access :=
  if startswith "VGET" id then match extract_value id with Some v => [Load v] | None => [] end
  else if contains "VSET" id then match extract_value id with Some v => [Store v] | None => [] end
  else [].
Lemma ids_access_eq ids l : ids_access ids l -> l = flat_map acc_id ids /\ forall id, In id ids -> contains "VSET" id = true -> extract_value id <> None.
Proof.
  intros H. induction H as [|x ids l H [IH W]|x ids l H [IH W]|x p ids l C1 C2 H [IH W]|id ids l P C H [IH W]]; (split; [|intros id' I Q]); cbn [flat_map];
    try (rewrite <- IH); try (destruct I as [<-|I]; [|solve [eauto]]).
  - reflexivity.
  - destruct I.
  - unfold acc_id. change (startswith "VGET" (vget_id x)) with true. rewrite extract_vget. reflexivity.
  - rewrite extract_vget. discriminate.
  - unfold acc_id. change (startswith "VGET" (vset_id x)) with false. change (contains "VSET" (vset_id x)) with true.
    rewrite extract_vset. reflexivity.
  - rewrite extract_vset. discriminate.
  - unfold acc_id. change (startswith "VGET" (dup_vset_id x p)) with false. change (contains "VSET" (dup_vset_id x p)) with true.
    rewrite extract_dup by exact C1. reflexivity.
  - rewrite extract_dup by exact C1. discriminate.
  - unfold acc_id, startswith. rewrite P, C. reflexivity.
  - congruence.
Qed.

(* --- picking and releasing --- *)
Lemma nth_set_nth_cases {A} (l : list A) i j v : nth_error (set_nth i v l) j = if (i =? j)%nat then (if (i <? length l)%nat then Some v else None) else nth_error l j.
Proof.
  destruct (Nat.eqb_spec i j) as [<-|N]; [|apply nth_set_nth_other; exact N].
  destruct (Nat.ltb_spec i (length l)) as [H|H]; [apply nth_set_nth_same; exact H|].
  apply nth_error_None. revert i H. induction l as [|x l IH]; intros [|i] H; cbn in *; try lia. specialize (IH i). lia.
Qed.
Lemma set_nth_length {A} (l : list A) i v : length (set_nth i v l) = length l.
Proof. revert i. induction l as [|x l IH]; intros [|i]; cbn; auto. Qed.

Lemma first_available_spec l : match first_available l with
  | Some i => nth_error l i = Some true /\ forall j, j < i -> nth_error l j = Some false
  | None => forall j, j < length l -> nth_error l j = Some false end.
Proof.
  induction l as [|[] l IH]; cbn [first_available].
  - intros j H. inversion H.
  - split; [reflexivity|]. intros j H. inversion H.
  - destruct (first_available l) as [i|]; cbn [option_map].
    + destruct IH as [I1 I2]. split; [exact I1|]. intros [|j] H; [reflexivity|]. apply I2. lia.
    + intros [|j] H; [reflexivity|]. apply IH. cbn in H. lia.
Qed.

Lemma pick_available_spec v av k c av' k' : pick_available_colour v av k = (c, av', k') ->
  nth_error av c <> Some false /\ (forall d, d < c -> nth_error av d = Some false) /\ nth_error av' c = Some false
  /\ (forall d, d <> c -> nth_error av' d = nth_error av d)
  /\ k_color k' = dict_set v c (k_color k) /\ k_class k' = k_class k /\ k_webs k' = k_webs k /\ c <= length av.
Proof.
  unfold pick_available_colour. pose proof (first_available_spec av) as F. destruct (first_available av) as [i|]; intros E; injection E as <- <- <-.
  - destruct F as [F1 F2]. assert (L : i < length av) by (apply nth_error_Some; congruence).
    split; [congruence|]. split; [exact F2|]. split; [apply nth_set_nth_same; exact L|]. split; [|cbn; auto with arith].
    intros d N. apply nth_set_nth_other. congruence.
  - assert (Q : nth_error av (length av) = None) by (apply nth_error_None; lia).
    split; [congruence|]. split; [exact F|].
    split; [rewrite nth_error_app2 by lia; rewrite Nat.sub_diag; reflexivity|]. split; [|cbn; auto].
    intros d N. destruct (Nat.lt_ge_cases d (length av)) as [L|L]; [apply nth_error_app1; exact L|].
    rewrite nth_error_app2 by lia. destruct (d - length av) as [|m] eqn:D; [lia|]. cbn. rewrite (proj2 (nth_error_None av d)) by lia.
    destruct m; reflexivity.
Qed.

Lemma bias_loop_spec v colors : forall av k av' k', bias_loop v colors av k = Ok (av', k') ->
  length av' = length av /\ (forall c, In c colors -> nth_error av' c = Some false)
  /\ (forall c, nth_error av c = Some false -> nth_error av' c = Some false)
  /\ (forall c, nth_error av' c = Some false -> nth_error av c = Some false \/ In c colors)
  /\ (forall x, x <> v -> lookup x (k_color k') = lookup x (k_color k)) /\ k_class k' = k_class k /\ k_webs k' = k_webs k.
Proof.
  induction colors as [|c colors IH]; intros av k av' k' H; cbn [bias_loop] in H.
  - injection H as <- <-. split; [reflexivity|]. split; [intros c []|]. auto.
  - destruct (nth_error av c) as [a|] eqn:A; cbn [of_option bind] in H; [|discriminate].
    assert (Lc : c < length av) by (apply nth_error_Some; congruence). destruct a.
    + unfold pick_specific_colour in H. rewrite A in H. cbn [bind] in H.
      destruct (IH _ _ _ _ H) as (I1 & I2 & I3 & I4 & I5 & I6 & I7). rewrite set_nth_length in I1.
      assert (Q : nth_error av' c = Some false) by (apply I3; apply nth_set_nth_same; exact Lc).
      split; [exact I1|]. split; [intros d [<-|I]; auto|]. split; [|split; [|split; [|auto]]].
      * intros d D. apply I3. rewrite nth_set_nth_cases. destruct (Nat.eqb_spec c d) as [<-|N]; [congruence|exact D].
      * intros d D. destruct (I4 d D) as [D'|D']; [|right; right; exact D'].
        rewrite nth_set_nth_cases in D'. destruct (Nat.eqb_spec c d) as [<-|N]; [right; left; reflexivity|left; exact D'].
      * intros x N. rewrite I5 by exact N. cbn. rewrite lookup_dict_set. destruct (String.eqb_spec v x); [congruence|reflexivity].
    + destruct (IH _ _ _ _ H) as (I1 & I2 & I3 & I4 & I5 & I6 & I7).
      split; [exact I1|]. split; [intros d [<-|I]; auto|]. split; [exact I3|]. split; [|auto].
      intros d D. destruct (I4 d D); [auto|right; right; auto].
Qed.

Lemma class_colors_add c d col r : class_colors r (class_add c col d) =
  match class_colors r d with Some l => Some (if (r =? c)%nat then l ++ [col] else l) | None => None end.
Proof.
  induction d as [|[c' l] d IH]; cbn; [reflexivity|].
  destruct (Nat.eqb_spec c' c) as [->|N]; cbn.
  - destruct (Nat.eqb_spec c r) as [->|N']; [rewrite Nat.eqb_refl; reflexivity|].
    destruct (class_colors r d); [|reflexivity]. destruct (Nat.eqb_spec r c); [congruence|reflexivity].
  - destruct (Nat.eqb_spec c' r) as [->|N']; [|exact IH]. destruct (Nat.eqb_spec r c); [congruence|reflexivity].
Qed.

Section Scan.
Variable w0 : webs.

(** The classes do not change, and the colour of a coloured variable of a class
    is among the colours of the class. *)
Record kinv (k : colouring) : Prop := {
  ki_shape : wshape (k_webs k);
  ki_class : w_class (k_webs k) = w_class w0;
  ki_root : forall j s, rooted (w_parent (k_webs k)) j s <-> rooted (w_parent w0) j s;
  ki_colors : forall x c r, lookup x (k_color k) = Some c -> rep w0 x r -> exists l, class_colors r (k_class k) = Some l /\ In c l
}.
Lemma rep_kinv k x r : kinv k -> rep (k_webs k) x r <-> rep w0 x r.
Proof. intros [S C R _]. unfold rep. rewrite C. split; intros (i & L & Q); exists i; split; auto; apply R; exact Q. Qed.

Lemma biased_pick_spec v av k av' k' : kinv k -> biased_pick_color v av k = Ok (av', k') ->
  exists c, lookup v (k_color k') = Some c /\ nth_error av' c = Some false
  /\ (forall x, x <> v -> lookup x (k_color k') = lookup x (k_color k))
  /\ (forall d, nth_error av d = Some false -> nth_error av' d = Some false /\ d <> c)
  /\ (forall x r d, rep w0 v r -> rep w0 x r -> lookup x (k_color k) = Some d -> nth_error av' d = Some false /\ d <> c)
  /\ kinv k'.
Proof.
  intros K H. unfold biased_pick_color in H. destruct (lookup v (w_class (k_webs k))) as [i|] eqn:L.
  - destruct (find_set_spec (k_webs k) v) as (r & w' & F & Rv & S' & C' & _ & _ & _ & Q'); [apply K|congruence|].
    rewrite F in H. cbn [bind] in H. destruct (class_colors r (k_class k)) as [colors|] eqn:CC; cbn [of_option bind] in H; [|discriminate].
    destruct (bias_loop v (rev colors) av _) as [[av1 k1]|] eqn:B; cbn [bind] in H; [|discriminate].
    destruct (bias_loop_spec _ _ _ _ _ _ B) as (B1 & B2 & B3 & B4 & B5 & B6 & B7). cbn [k_class k_webs k_color] in *.
    destruct (pick_available_colour v av1 k1) as [[c av2] k2] eqn:P.
    destruct (pick_available_spec _ _ _ _ _ _ P) as (P1 & _ & P2 & P3 & P4 & P5 & P6 & _). injection H as <- <-.
    exists c. cbn [k_color k_class k_webs]. rewrite P4.
    assert (Same : forall x, x <> v -> lookup x (dict_set v c (k_color k1)) = lookup x (k_color k)).
    { intros x N. rewrite lookup_dict_set. destruct (String.eqb_spec v x); [congruence|]. apply B5. exact N. }
    assert (Rv0 : rep w0 v r) by (exact (proj1 (rep_kinv k v r K) Rv)).
    split; [rewrite lookup_dict_set, String.eqb_refl; reflexivity|]. split; [exact P2|]. split; [exact Same|].
    assert (Keep : forall d, nth_error av1 d = Some false -> nth_error av2 d = Some false /\ d <> c).
    { intros d D. assert (d <> c) by (intros ->; contradiction). split; [|assumption]. rewrite P3 by assumption. exact D. }
    split; [intros d D; apply Keep; apply B3; exact D|]. split.
    + intros x r' d Rv' Rx Lx. assert (r' = r) by (exact (rep_fun w0 v r' r Rv' Rv0)). subst r'.
      destruct (ki_colors k K x d r Lx Rx) as (l & E1 & E2). assert (l = colors) by congruence. subst l.
      apply Keep, B2. apply in_rev. rewrite rev_involutive. exact E2.
    + constructor; cbn [k_color k_class k_webs].
      * rewrite P6, B7. exact S'.
      * rewrite P6, B7, C'. apply K.
      * intros j s. rewrite P6, B7, Q'. apply K.
      * intros x d r' Lx Rx. rewrite P5, B6, class_colors_add. destruct (string_dec x v) as [->|N].
        -- assert (r' = r) by (exact (rep_fun w0 v r' r Rx Rv0)). subst r'. rewrite CC, Nat.eqb_refl.
           rewrite lookup_dict_set, String.eqb_refl in Lx. injection Lx as <-. eexists. split; [reflexivity|]. apply in_app_iff. right. left. reflexivity.
        -- rewrite Same in Lx by exact N. destruct (ki_colors k K x d r' Lx Rx) as (l & E1 & E2). rewrite E1.
           eexists. split; [reflexivity|]. destruct (r' =? r)%nat; [apply in_app_iff; auto|exact E2].
  - destruct (pick_available_colour v av k) as [[c av2] k2] eqn:P.
    destruct (pick_available_spec _ _ _ _ _ _ P) as (P1 & _ & P2 & P3 & P4 & P5 & P6 & _). injection H as <- <-.
    exists c. rewrite P4. split; [rewrite lookup_dict_set, String.eqb_refl; reflexivity|]. split; [exact P2|]. split.
    { intros x N. rewrite lookup_dict_set. destruct (String.eqb_spec v x); [congruence|reflexivity]. }
    assert (NR : forall r, ~ rep w0 v r) by (intros r (j & Q & _); rewrite <- (ki_class k K) in Q; congruence).
    split; [|split].
    + intros d D. assert (d <> c) by (intros ->; contradiction). split; [|assumption]. rewrite P3 by assumption. exact D.
    + intros x r d R. destruct (NR r R).
    + constructor.
      * rewrite P6. apply K.
      * rewrite P6. apply K.
      * intros j s. rewrite P6. apply K.
      * intros x d r Lx Rx. rewrite P5. rewrite P4, lookup_dict_set in Lx. destruct (String.eqb_spec v x) as [<-|N]; [destruct (NR r Rx)|].
        eapply ki_colors; eauto.
Qed.

Lemma release_spec v av k av' : release_colour v av k = Ok av' ->
  exists c, lookup v (k_color k) = Some c /\ (forall d, d <> c -> nth_error av' d = nth_error av d).
Proof.
  unfold release_colour. destruct (lookup v (k_color k)) as [c|]; [|discriminate]. destruct (c <? length av)%nat; [|discriminate].
  intros E. injection E as <-. exists c. split; [reflexivity|]. intros d N. apply nth_set_nth_other. congruence.
Qed.

(** The variables held in registers at some point of a path: each has a colour
    that is not available, different for different variables. *)
Record inv (held : list string) (av : list bool) (k : colouring) : Prop := {
  in_col : forall x, In x held -> exists c, lookup x (k_color k) = Some c /\ nth_error av c = Some false;
  in_dif : forall x y c, In x held -> In y held -> lookup x (k_color k) = Some c -> lookup y (k_color k) = Some c -> x = y;
  in_k : kinv k
}.
Definition run {V} (color : string -> option nat) (val : string -> V) (regs : nat -> option V) (l : list access) : nat -> option V :=
  fold_left (fun r a => match a with Store x => write color val x r | Load _ => r end) l regs.
Definition rinv {V} (color : string -> option nat) (val : string -> V) (held : list string) (regs : nat -> option V) : Prop :=
  forall x, In x held -> exists c, color x = Some c /\ regs c = Some (val x).

Record seg (stored held : list string) (k : colouring) (l : list access) (held' : list string) (av' : list bool) (k' : colouring) : Prop := {
  sg_inv : inv held' av' k';
  sg_in : forall x, In x held' -> In x stored \/ In x (stores l);
  sg_same : forall x, ~ In x (stores l) -> lookup x (k_color k') = lookup x (k_color k);
  sg_run : forall V (val : string -> V) color regs, (forall x, In x stored \/ In x (stores l) -> color x = lookup x (k_color k')) ->
    rinv color val held regs -> loads_right color val regs l /\ rinv color val held' (run color val regs l)
}.

Lemma loads_right_app {V} color (val : string -> V) l l' : forall regs,
  loads_right color val regs (l ++ l') <-> loads_right color val regs l /\ loads_right color val (run color val regs l) l'.
Proof. induction l as [|[x|x] l IH]; intros regs; cbn; [tauto|apply IH|]. rewrite IH. unfold run. tauto. Qed.
Lemma run_app {V} color (val : string -> V) l l' regs : run color val regs (l ++ l') = run color val (run color val regs l) l'.
Proof. apply fold_left_app. Qed.
Lemma stores_app l l' : stores (l ++ l') = stores l ++ stores l'.
Proof. induction l as [|[x|x] l IH]; cbn; congruence. Qed.

Lemma seg_app stored held k l1 held1 av1 k1 l2 held2 av2 k2 :
  seg stored held k l1 held1 av1 k1 -> seg (stores l1 ++ stored) held1 k1 l2 held2 av2 k2 ->
  (forall x, In x (stores l2) -> ~ In x stored /\ ~ In x (stores l1)) ->
  seg stored held k (l1 ++ l2) held2 av2 k2.
Proof.
  intros [A1 A2 A3 A4] [B1 B2 B3 B4] D. constructor.
  - exact B1.
  - intros x I. rewrite stores_app, in_app_iff. destruct (B2 x I) as [I'|I']; [apply in_app_iff in I'; tauto|tauto].
  - intros x N. rewrite stores_app, in_app_iff in N. rewrite B3, A3; tauto.
  - intros V val color regs C R. rewrite loads_right_app, run_app.
    destruct (A4 V val color regs) as [Q1 Q2].
    + intros x I. rewrite C by (rewrite stores_app, in_app_iff; tauto). apply B3. intros I'. destruct (D x I'). tauto.
    + exact R.
    + destruct (B4 V val color (run color val regs l1)) as [Q3 Q4]; [|exact Q2|auto].
      intros x I. apply C. rewrite stores_app, in_app_iff. rewrite in_app_iff in I. tauto.
Qed.

Lemma seg_nil stored held av k : inv held av k -> (forall x, In x held -> In x stored) -> seg stored held k [] held av k.
Proof. intros I S. constructor; auto. intros. split; [exact Logic.I|assumption]. Qed.

(** after a pick: [v] is held, and those of [held] that are still *)
Lemma seg_pick stored held k v held' av' k' :
  inv (v :: held') av' k' -> (forall x, In x held' -> In x held) -> (forall x, In x held -> In x stored) -> ~ In v held' ->
  (forall x, x <> v -> lookup x (k_color k') = lookup x (k_color k)) ->
  seg stored held k [Store v] (v :: held') av' k'.
Proof.
  intros I S S' N E. constructor.
  - exact I.
  - intros x [<-|I']; cbn; auto.
  - intros x N'. apply E. intros ->. apply N'. left. reflexivity.
  - intros V val color regs C R. split; [exact Logic.I|]. cbn. intros x I'.
    destruct (in_col _ _ _ I x I') as (c & L & _). destruct (in_col _ _ _ I v (or_introl eq_refl)) as (cv & Lv & _).
    assert (Cx : color x = Some c). { rewrite C; [exact L|]. destruct I' as [<-|I']; cbn; auto. }
    assert (Cv : color v = Some cv) by (rewrite C; [exact Lv|cbn; auto]).
    exists c. split; [exact Cx|]. unfold write. rewrite Cv. destruct (Nat.eqb_spec cv c) as [->|NC].
    + f_equal. f_equal. apply (in_dif _ _ _ I v x c (or_introl eq_refl) I' Lv L).
    + destruct I' as [<-|I']; [congruence|]. destruct (R x (S x I')) as (c' & C' & Q). congruence.
Qed.

Lemma inv_sub held held' av k : inv held av k -> (forall x, In x held' -> In x held) -> inv held' av k.
Proof. intros [A B C] S. constructor; [intros x I; apply A; auto|intros x y c Ix Iy; apply B; auto|exact C]. Qed.

Lemma seg_load stored held k v held' av' : In v held -> inv held' av' k -> (forall x, In x held' -> In x held) -> (forall x, In x held -> In x stored) ->
  seg stored held k [Load v] held' av' k.
Proof.
  intros I I' S S'. constructor.
  - exact I'.
  - intros x Q. left. auto.
  - auto.
  - intros V val color regs C R. split; [split; [apply R; exact I|exact Logic.I]|]. cbn. intros x Q. apply R. auto.
Qed.

Definition without (vs : list string) (l : list string) : list string := filter (fun x => negb (mem x vs)) l.
Lemma In_without x vs l : In x (without vs l) <-> In x l /\ ~ In x vs.
Proof. unfold without. rewrite filter_In, negb_true_iff, mem_false. tauto. Qed.

Lemma inv_release held v av k av' : inv held av k -> In v held -> release_colour v av k = Ok av' -> inv (without [v] held) av' k.
Proof.
  intros I Iv H. destruct (release_spec _ _ _ _ H) as (c & L & E).
  destruct I as [A B K]. constructor; [|intros x y d Ix Iy; apply In_without in Ix, Iy; apply B; tauto|exact K].
  intros x Ix. apply In_without in Ix as [Ix N]. destruct (A x Ix) as (d & Lx & F). exists d. split; [exact Lx|].
  rewrite E; [exact F|]. intros ->. apply N. left. eapply B; eauto.
Qed.

(* --- phi functions --- *)
Lemma release_args_spec last k args : forall av av1,
  for_each (fun av a => if mem a (lu_args last) && is_coloured a k then release_colour a av k else Ok av) args av = Ok av1 ->
  forall d, nth_error av d = Some false -> nth_error av1 d = Some false \/ exists a, In a args /\ In a (lu_args last) /\ lookup a (k_color k) = Some d.
Proof.
  induction args as [|a args IH]; intros av av1 H d D; cbn [for_each] in H; [injection H as <-; auto|].
  destruct (mem a (lu_args last) && is_coloured a k) eqn:M.
  - destruct (release_colour a av k) as [av'|] eqn:R; cbn [bind] in H; [|discriminate].
    destruct (release_spec _ _ _ _ R) as (c & L & E). apply andb_true_iff in M as [M _]. apply mem_In in M.
    destruct (Nat.eq_dec d c) as [->|N]; [right; exists a; cbn; auto|].
    destruct (IH _ _ H d) as [Q|(b & B1 & B2)]; [rewrite E by exact N; exact D|auto|]. right. exists b. cbn. tauto.
  - cbn [bind] in H. destruct (IH _ _ H d D) as [Q|(b & B1 & B2)]; [auto|]. right. exists b. cbn. tauto.
Qed.

Definition same_class (d : string) (args : list string) : Prop := forall a, In a args -> exists r, rep w0 d r /\ rep w0 a r.

Lemma phi_step last solve stored held av k d args av' k' :
  assign_phi last solve (av, k) (d, args) = Ok (av', k') -> In d solve -> inv held av k -> (forall x, In x held -> In x stored) ->
  ~ In d stored -> same_class d args ->
  exists held', seg stored held k [Store d] (d :: held') av' k' /\ (forall x, In x held -> ~ In x (lu_args last) -> In x held')
    /\ (forall x, In x held' -> In x held).
Proof.
  intros H M I S N C. unfold assign_phi in H. cbn [fst snd] in H. rewrite (proj2 (mem_In d solve) M) in H.
  destruct (for_each _ args av) as [av1|] eqn:R; cbn [bind] in H; [|discriminate].
  pose proof (release_args_spec _ _ _ _ _ R) as RS.
  destruct (biased_pick_spec _ _ _ _ _ (in_k _ _ _ I) H) as (c & L & F & E & P1 & P2 & K').
  set (held' := without (filter (fun a => mem a (lu_args last)) args) held).
  assert (Sub : forall x, In x held' -> In x held) by (intros x Q; apply In_without in Q; tauto).
  exists held'. split; [|split; [|exact Sub]].
  - apply seg_pick; auto.
    assert (Old : forall x, In x held' -> exists e, lookup x (k_color k') = Some e /\ nth_error av' e = Some false /\ e <> c).
    { intros x Q. destruct (in_col _ _ _ I x (Sub x Q)) as (e & Lx & Fx). exists e.
      rewrite E by (intros ->; apply N, S, Sub, Q). split; [exact Lx|].
      destruct (RS e Fx) as [Q'|(a & A1 & A2 & A3)]; [apply P1; exact Q'|].
      destruct (C a A1) as (r & R1 & R2). eapply P2; eauto. }
    constructor.
    + intros x [<-|Q]; [eauto|]. destruct (Old x Q) as (e & ? & ? & _). eauto.
    + intros x y e [<-|Qx] [<-|Qy] Lx Ly; [reflexivity| | |].
      * destruct (Old y Qy) as (e' & ? & _ & ?). congruence.
      * destruct (Old x Qx) as (e' & ? & _ & ?). congruence.
      * rewrite E in Lx by (intros ->; apply N, S, Sub, Qx). rewrite E in Ly by (intros ->; apply N, S, Sub, Qy).
        eapply in_dif; eauto.
    + exact K'.
  - intros x Q NL. apply In_without. split; [exact Q|]. rewrite filter_In, mem_In. tauto.
Qed.

Definition phi_defs (solve : list string) (phis : list (string * list string)) : list string := filter (fun x => mem x solve) (map fst phis).
Lemma stores_map l : stores (map Store l) = l.
Proof. induction l; cbn; congruence. Qed.

Lemma phis_step last solve phis : forall stored held av k av' k',
  for_each (assign_phi last solve) phis (av, k) = Ok (av', k') -> inv held av k -> (forall x, In x held -> In x stored) ->
  NoDup (phi_defs solve phis) -> (forall x, In x (phi_defs solve phis) -> ~ In x stored) ->
  (forall d args, In (d, args) phis -> In d solve -> same_class d args) ->
  exists held', seg stored held k (map Store (phi_defs solve phis)) held' av' k'
    /\ (forall x, In x held \/ In x (phi_defs solve phis) -> ~ In x (lu_args last) -> In x held').
Proof.
  induction phis as [|[d args] phis IH]; intros stored held av k av' k' H I S ND Fr C; cbn [for_each] in H.
  - injection H as <- <-. exists held. split; [apply seg_nil; auto|]. intros x [Q|[]] _. exact Q.
  - destruct (assign_phi last solve (av, k) (d, args)) as [[av1 k1]|] eqn:P; cbn [bind] in H; [|discriminate].
    unfold phi_defs in *. cbn [map filter fst] in *. destruct (mem d solve) eqn:M.
    + apply mem_In in M. inversion ND as [|? ? N1 N2]; subst.
      destruct (phi_step _ _ stored held _ _ _ _ _ _ P M I S) as (h1 & G1 & K1 & Sub); [apply Fr; left; reflexivity|eapply C; eauto; left; reflexivity|].
      destruct (IH (d :: stored) (d :: h1) _ _ _ _ H) as (h2 & G2 & K2).
      * apply G1.
      * intros x [<-|Q]; [left; reflexivity|right; auto].
      * exact N2.
      * intros x Q [<-|Q']; [contradiction|]. exact (Fr x (or_intror Q) Q').
      * intros d' args' Q. apply C. right. exact Q.
      * exists h2. split.
        -- change (map Store (d :: ?l)) with ([Store d] ++ map Store l). eapply seg_app; [exact G1|exact G2|].
           rewrite stores_map. cbn. intros x Q. split; [apply Fr; right; exact Q|]. intros [<-|[]]. contradiction.
        -- intros x Q NL. apply K2; [|exact NL]. cbn in Q. destruct Q as [Q|[<-|Q]]; [left; right; apply K1; auto|left; left; reflexivity|right; exact Q].
    + assert ((av1, k1) = (av, k)).
      { unfold assign_phi in P. cbn [fst] in P. rewrite M in P. congruence. }
      injection H0 as -> ->. destruct (IH stored held _ _ _ _ H I S ND Fr) as (h2 & G2 & K2).
      * intros d' args' Q. apply C. right. exact Q.
      * exists h2. auto.
Qed.

(* --- the ids of a block --- *)
Lemma ids_step last (later : string -> Prop) ids : forall pos stored held av k av' k',
  for_each (assign_id last) (combine (seq pos (length ids)) ids) (av, k) = Ok (av', k') ->
  inv held av k -> (forall x, In x held -> In x stored) ->
  NoDup (stores (flat_map acc_id ids)) -> (forall x, In x (stores (flat_map acc_id ids)) -> ~ In x stored) ->
  defined_before stored (flat_map acc_id ids) ->
  (forall x, In x stored -> In (Load x) (flat_map acc_id ids) \/ later x -> In x held) ->
  (forall i id v, nth_error ids i = Some id -> startswith "VGET" id = true -> extract_value id = Some v -> In (pos + i) (lu_pos last) ->
     ~ later v /\ forall j id', i < j -> nth_error ids j = Some id' -> ~ In (Load v) (acc_id id')) ->
  exists held', seg stored held k (flat_map acc_id ids) held' av' k'
    /\ (forall x, In x stored \/ In x (stores (flat_map acc_id ids)) -> later x -> In x held').
Proof.
  induction ids as [|id ids IH]; intros pos stored held av k av' k' H I S ND Fr DB Al Mk; cbn [for_each combine length seq] in H.
  - injection H as <- <-. exists held. split; [apply seg_nil; auto|]. intros x [Q|[]] La. auto.
  - destruct (assign_id last (av, k) (pos, id)) as [[av1 k1]|] eqn:P; cbn [bind] in H; [|discriminate].
    cbn [flat_map] in *.
    assert (Next : forall stored1 held1, seg stored held k (acc_id id) held1 av1 k1 -> (forall x, In x stored1 <-> In x (stores (acc_id id) ++ stored)) ->
       stored1 = stores (acc_id id) ++ stored ->
       (forall x, In x stored1 -> In (Load x) (flat_map acc_id ids) \/ later x -> In x held1) ->
       exists held', seg stored held k (acc_id id ++ flat_map acc_id ids) held' av' k'
         /\ (forall x, In x stored \/ In x (stores (acc_id id ++ flat_map acc_id ids)) -> later x -> In x held')).
    { intros stored1 held1 G _ -> Al1.
      assert (Ex : forall l1 l2, NoDup (l1 ++ l2) -> NoDup l2 /\ forall x : string, In x l2 -> ~ In x l1).
      { clear. induction l1 as [|a l1 IH]; intros l2 Q; [auto|]. inversion Q; subst. destruct (IH _ H2) as [Q1 Q2]. split; [exact Q1|].
        intros x I [<-|I']; [apply H1, in_app_iff; auto|eapply Q2; eauto]. }
      rewrite stores_app in ND. destruct (Ex _ _ ND) as [ND2 Dj].
      destruct (IH (Datatypes.S pos) (stores (acc_id id) ++ stored) held1 av1 k1 av' k' H) as (h2 & G2 & K2).
      - apply G.
      - intros x Q. destruct (sg_in _ _ _ _ _ _ _ G x Q); apply in_app_iff; auto.
      - exact ND2.
      - intros x Q Q'. apply in_app_iff in Q' as [Q'|Q']; [exact (Dj x Q Q')|]. apply (Fr x); [rewrite stores_app, in_app_iff; auto|exact Q'].
      - revert DB. clear. unfold acc_id. destruct (startswith "VGET" id); [destruct (extract_value id); cbn; tauto|].
        destruct (contains "VSET" id); [destruct (extract_value id); cbn; tauto|]. cbn. tauto.
      - exact Al1.
      - intros i id' v N1 N2 N3 N4. destruct (Mk (Datatypes.S i) id' v N1 N2 N3) as [M1 M2]; [rewrite <- Nat.add_succ_comm; exact N4|].
        split; [exact M1|]. intros j id'' Lt N5. apply (M2 (Datatypes.S j) id''); [lia|exact N5].
      - exists h2. split.
        + eapply seg_app; [exact G|exact G2|]. intros x Q. split; [|apply Dj; exact Q]. apply Fr. rewrite stores_app, in_app_iff. auto.
        + intros x Q La. apply K2; [|exact La]. rewrite stores_app, in_app_iff in Q. rewrite in_app_iff. tauto. }
    unfold assign_id in P. destruct (startswith "VGET" id) eqn:G.
    + unfold startswith in G. assert (X : exists v, extract_value id = Some v).
      { unfold extract_value, startswith. rewrite G. eauto. }
      destruct X as (v & X). assert (A : acc_id id = [Load v]) by (unfold acc_id, startswith; rewrite G, X; reflexivity).
      rewrite A in *. cbn [app stores] in *. destruct DB as [Dv DB].
      assert (Hv : In v held) by (apply Al; [exact Dv|left; left; reflexivity]).
      destruct (existsb (Nat.eqb pos) (lu_pos last)) eqn:EX.
      * rewrite X in P. cbn [of_option bind] in P. destruct (release_colour v av k) as [av2|] eqn:R; cbn [bind] in P; [|discriminate].
        injection P as <- <-. apply existsb_exists in EX as (q & Q1 & Q2). apply Nat.eqb_eq in Q2. subst q.
        destruct (Mk 0 id v eq_refl G X) as [M1 M2]; [rewrite Nat.add_0_r; exact Q1|].
        apply (Next stored (without [v] held)); [|intros; cbn; tauto|reflexivity|].
        -- apply seg_load; auto; [eapply inv_release; eauto|]. intros x Q. apply In_without in Q. tauto.
        -- intros x Sx La. apply In_without. split; [apply Al; [exact Sx|cbn; tauto]|]. intros [<-|[]].
           destruct La as [La|La]; [|contradiction]. apply in_flat_map in La as (id' & I1 & I2). apply In_nth_error in I1 as (j & J).
           apply (M2 (Datatypes.S j) id'); [lia|exact J|exact I2].
      * injection P as <- <-. apply (Next stored held); [|intros; cbn; tauto|reflexivity|].
        -- apply seg_load; auto.
        -- intros x Sx La. apply Al; [exact Sx|cbn; tauto].
    + destruct (contains "VSET" id) eqn:Cn.
      * destruct (extract_value id) as [v|] eqn:X; cbn [of_option bind] in P; [|discriminate].
        assert (A : acc_id id = [Store v]) by (unfold acc_id; rewrite G, Cn, X; reflexivity).
        rewrite A in *. cbn [app stores] in *.
        assert (Nv : ~ In v stored) by (apply Fr; left; reflexivity).
        destruct (biased_pick_spec _ _ _ _ _ (in_k _ _ _ I) P) as (c & L & F & E & P1 & _ & K').
        assert (Old : forall x, In x held -> exists e, lookup x (k_color k1) = Some e /\ nth_error av1 e = Some false /\ e <> c).
        { intros x Q. destruct (in_col _ _ _ I x Q) as (e & Lx & Fx). exists e.
          rewrite E by (intros ->; apply Nv, S, Q). split; [exact Lx|]. apply P1; exact Fx. }
        apply (Next (v :: stored) (v :: held)); [|intros; cbn; tauto|reflexivity|].
        -- apply seg_pick; auto. constructor.
           ++ intros x [<-|Q]; [eauto|]. destruct (Old x Q) as (e & ? & ? & _). eauto.
           ++ intros x y e [<-|Qx] [<-|Qy] Lx Ly; [reflexivity| | |].
              ** destruct (Old y Qy) as (e' & ? & _ & ?). congruence.
              ** destruct (Old x Qx) as (e' & ? & _ & ?). congruence.
              ** rewrite E in Lx by (intros ->; apply Nv, S, Qx). rewrite E in Ly by (intros ->; apply Nv, S, Qy). eapply in_dif; eauto.
           ++ exact K'.
        -- intros x [<-|Sx] La; [left; reflexivity|]. right. apply Al; [exact Sx|cbn; tauto].
      * injection P as <- <-. assert (A : acc_id id = []) by (unfold acc_id; rewrite G, Cn; reflexivity).
        rewrite A in *. cbn [app stores] in *. apply (Next stored held); [|intros; cbn; tauto|reflexivity|].
        -- apply seg_nil; auto.
        -- intros x Sx La. apply Al; [exact Sx|exact La].
Qed.

(* --- the values passed to phi functions --- *)
Lemma stores_loads l : stores (map Load l) = [].
Proof. induction l; cbn; auto. Qed.
Lemma copies_step last (later : string -> Prop) copies : forall stored held av k av' k',
  for_each (fun st v => let '(available, k) := st in
    if mem v (lu_copies last) then do available' <- release_colour v available k; Ok (available', k) else Ok st) copies (av, k) = Ok (av', k') ->
  inv held av k -> (forall x, In x held -> In x stored) -> NoDup copies -> defined_before stored (map Load copies) ->
  (forall x, In x stored -> In x copies \/ later x -> In x held) -> (forall v, In v copies -> In v (lu_copies last) -> ~ later v) ->
  exists held', seg stored held k (map Load copies) held' av' k' /\ (forall x, In x stored -> later x -> In x held').
Proof.
  induction copies as [|v copies IH]; intros stored held av k av' k' H I S ND DB Al Mk; cbn [for_each] in H.
  - injection H as <- <-. exists held. split; [apply seg_nil; auto|]. auto.
  - cbn [map defined_before] in DB. destruct DB as [Dv DB]. inversion ND as [|? ? N1 N2]; subst.
    assert (Hv : In v held) by (apply Al; [exact Dv|left; left; reflexivity]).
    assert (Next : forall held1 av1, seg stored held k [Load v] held1 av1 k ->
      for_each (fun st v => let '(available, k) := st in
        if mem v (lu_copies last) then do available' <- release_colour v available k; Ok (available', k) else Ok st) copies (av1, k) = Ok (av', k') ->
      (forall x, In x held1 -> In x held) ->
      (forall x, In x stored -> In x copies \/ later x -> In x held1) ->
      exists held', seg stored held k (map Load (v :: copies)) held' av' k' /\ (forall x, In x stored -> later x -> In x held')).
    { intros h1 av1 G H1 Sub Al1. destruct (IH stored h1 av1 k av' k' H1) as (h2 & G2 & K2).
      - apply G.
      - auto.
      - exact N2.
      - exact DB.
      - exact Al1.
      - intros u Q. apply Mk. right. exact Q.
      - exists h2. split; [|exact K2]. change (map Load (v :: copies)) with ([Load v] ++ map Load copies). eapply seg_app; [exact G|exact G2|].
        rewrite stores_loads. intros x []. }
    destruct (mem v (lu_copies last)) eqn:M.
    + destruct (release_colour v av k) as [av1|] eqn:R; cbn [bind] in H; [|discriminate].
      apply (Next (without [v] held) av1); [|exact H| |].
      * apply seg_load; auto; [eapply inv_release; eauto|]. intros x Q. apply In_without in Q. tauto.
      * intros x Q. apply In_without in Q. tauto.
      * intros x Sx La. apply In_without. split; [apply Al; [exact Sx|cbn; tauto]|]. intros [<-|[]].
        destruct La as [La|La]; [contradiction|]. apply mem_In in M. exact (Mk v (or_introl eq_refl) M La).
    + cbn [bind] in H. apply (Next held av); [apply seg_load; auto|exact H|auto|].
      intros x Sx La. apply Al; [exact Sx|cbn; tauto].
Qed.
End Scan.

(* --- the marks --- *)
Record marked_block (b : rblock) (already used : list string) : Prop := {
  mb_copies : forall v, In v (lu_copies (rb_last b)) -> ~ In v already;
  mb_pos : forall i id v, nth_error (rb_ids b) i = Some id -> startswith "VGET" id = true -> extract_value id = Some v -> In i (lu_pos (rb_last b)) ->
    (~ In v already /\ ~ In v (rb_copies b)) /\ forall j id', i < j -> nth_error (rb_ids b) j = Some id' -> ~ In (Load v) (acc_id id');
  mb_args : forall a, In a (lu_args (rb_last b)) -> ~ In a already /\ ~ In a (rb_copies b) /\ ~ In (Load a) (flat_map acc_id (rb_ids b));
  mb_used : forall x, In x already \/ In x (rb_copies b) \/ In (Load x) (flat_map acc_id (rb_ids b)) -> In x used
}.

Lemma mark_copies_spec copies : forall u l u' l', mark_copies copies (u, l) = (u', l') ->
  lu_pos l' = lu_pos l /\ lu_args l' = lu_args l /\ (forall x, In x u' <-> In x u \/ In x copies)
  /\ (forall v, In v (lu_copies l') -> In v (lu_copies l) \/ ~ In v u).
Proof.
  unfold mark_copies. induction copies as [|v copies IH]; intros u l u' l' H; cbn [fold_left] in H.
  - injection H as <- <-. split; [reflexivity|]. split; [reflexivity|]. split; [cbn; tauto|auto].
  - destruct (mem v u) eqn:M.
    + destruct (IH _ _ _ _ H) as (A & B & C & D). split; [exact A|]. split; [exact B|]. apply mem_In in M. split; [|exact D].
      intros x. rewrite C. cbn. split; [tauto|]. intros [Q|[<-|Q]]; auto.
    + destruct (IH _ _ _ _ H) as (A & B & C & D). apply mem_false in M. split; [exact A|]. split; [exact B|]. split.
      * intros x. rewrite C. cbn. tauto.
      * intros x Q. destruct (D x Q) as [[<-|Q']|Q']; [auto|auto|]. right. intros Q''. apply Q'. right. exact Q''.
Qed.

Lemma acc_load v id : In (Load v) (acc_id id) <-> startswith "VGET" id = true /\ extract_value id = Some v.
Proof.
  unfold acc_id. destruct (startswith "VGET" id).
  - destruct (extract_value id) as [u|]; cbn; [|intuition discriminate]. split; [intros [Q|[]]; injection Q as ->; auto|]. intros [_ Q]. injection Q as ->. auto.
  - split; [|intros [Q _]; discriminate]. destruct (contains "VSET" id); [|intros []]. destruct (extract_value id); cbn; [|intros []]. intros [Q|[]]. discriminate.
Qed.

Lemma mark_gets_spec ps : forall u l u' l',
  fold_left (fun st pi => let '(used, l) := st in let '(pos, id) := (pi : nat * string) in
    if startswith "VGET" id then
      match extract_value id with
      | Some v => if mem v used then st
                  else (v :: used, {| lu_pos := pos :: lu_pos l; lu_args := lu_args l; lu_copies := lu_copies l |})
      | None => st
      end
    else st) ps (u, l) = (u', l') ->
  lu_args l' = lu_args l /\ lu_copies l' = lu_copies l
  /\ (forall x, In x u' <-> In x u \/ exists p id, In (p, id) ps /\ In (Load x) (acc_id id))
  /\ (forall p, In p (lu_pos l') -> In p (lu_pos l) \/ exists pre id post v, ps = pre ++ (p, id) :: post /\ In (Load v) (acc_id id) /\ ~ In v u
        /\ forall p' id', In (p', id') pre -> ~ In (Load v) (acc_id id')).
Proof.
  induction ps as [|[pos id] ps IH]; intros u l u' l' H; cbn [fold_left] in H.
  - injection H as <- <-. split; [reflexivity|]. split; [reflexivity|]. split; [|auto]. intros x. split; [auto|]. intros [Q|(p & i & [] & _)]. exact Q.
  - assert (Skip : (forall v, In (Load v) (acc_id id) -> In v u) ->
      fold_left (fun st pi => let '(used, l) := st in let '(pos, id) := (pi : nat * string) in
        if startswith "VGET" id then
          match extract_value id with
          | Some v => if mem v used then st
                      else (v :: used, {| lu_pos := pos :: lu_pos l; lu_args := lu_args l; lu_copies := lu_copies l |})
          | None => st
          end
        else st) ps (u, l) = (u', l') ->
      lu_args l' = lu_args l /\ lu_copies l' = lu_copies l
      /\ (forall x, In x u' <-> In x u \/ exists p id0, In (p, id0) ((pos, id) :: ps) /\ In (Load x) (acc_id id0))
      /\ (forall p, In p (lu_pos l') -> In p (lu_pos l) \/ exists pre id0 post v, (pos, id) :: ps = pre ++ (p, id0) :: post /\ In (Load v) (acc_id id0) /\ ~ In v u
            /\ forall p' id', In (p', id') pre -> ~ In (Load v) (acc_id id'))).
    { intros K H'. destruct (IH _ _ _ _ H') as (A & B & C & D). split; [exact A|]. split; [exact B|]. split.
      - intros x. rewrite C. split.
        + intros [Q|(p & i & Q1 & Q2)]; [auto|]. right. exists p, i. cbn. auto.
        + intros [Q|(p & i & [Q1|Q1] & Q2)]; [auto| |right; eauto]. injection Q1 as <- <-. auto.
      - intros p Q. destruct (D p Q) as [Q'|(pre & i & post & v & E & L & N & F)]; [auto|]. right.
        exists ((pos, id) :: pre), i, post, v. split; [cbn; f_equal; exact E|]. split; [exact L|]. split; [exact N|].
        intros p' id' [Q'|Q']; [|eapply F; eauto]. injection Q' as <- <-. intros Q''. apply N, K, Q''. }
    destruct (startswith "VGET" id) eqn:G.
    + destruct (extract_value id) as [v|] eqn:X.
      * destruct (mem v u) eqn:M.
        -- apply Skip; [|exact H]. intros v' Q. apply acc_load in Q as [_ Q]. apply mem_In in M. congruence.
        -- apply mem_false in M. destruct (IH _ _ _ _ H) as (A & B & C & D). split; [exact A|]. split; [exact B|]. split.
           ++ intros x. rewrite C. cbn. split.
              ** intros [[<-|Q]|(p & i & Q1 & Q2)]; [right; exists pos, id; split; [auto|apply acc_load; auto]|auto|right; exists p, i; auto].
              ** intros [Q|(p & i & [Q1|Q1] & Q2)]; [auto| |right; eauto]. injection Q1 as <- <-. apply acc_load in Q2 as [_ Q2]. left. left. congruence.
           ++ intros p Q. destruct (D p Q) as [[<-|Q']|(pre & i & post & v' & E & L & N & F)]; [|auto|].
              ** right. exists [], id, ps, v. split; [reflexivity|]. split; [apply acc_load; auto|]. split; [exact M|]. intros ? ? [].
              ** right. exists ((pos, id) :: pre), i, post, v'. split; [cbn; f_equal; exact E|]. split; [exact L|]. split; [intros Q'; apply N; right; exact Q'|].
                 intros p' id' [Q'|Q']; [|eapply F; eauto]. injection Q' as <- <-. intros Q''. apply acc_load in Q'' as [_ Q'']. apply N. left. congruence.
      * apply Skip; [|exact H]. intros v' Q. apply acc_load in Q as [_ Q]. congruence.
    + apply Skip; [|exact H]. intros v' Q. apply acc_load in Q as [Q _]. congruence.
Qed.

Lemma mark_args_spec phis solve : forall u l u' l', mark_args phis solve (u, l) = (u', l') ->
  lu_pos l' = lu_pos l /\ lu_copies l' = lu_copies l /\ (forall x, In x u -> In x u')
  /\ (forall a, In a (lu_args l') -> In a (lu_args l) \/ ~ In a u).
Proof.
  assert (One : forall args u l u' l',
    fold_left (fun st a => let '(used, l) := st in
        if mem a used then st
        else (a :: used, {| lu_pos := lu_pos l; lu_args := a :: lu_args l; lu_copies := lu_copies l |})) args (u, l) = (u', l') ->
    lu_pos l' = lu_pos l /\ lu_copies l' = lu_copies l /\ (forall x, In x u -> In x u')
    /\ (forall a, In a (lu_args l') -> In a (lu_args l) \/ ~ In a u)).
  { induction args as [|a args IH]; intros u l u' l' H; cbn [fold_left] in H.
    - injection H as <- <-. auto 10.
    - destruct (mem a u) eqn:M.
      + exact (IH _ _ _ _ H).
      + apply mem_false in M. destruct (IH _ _ _ _ H) as (A & B & C & D). split; [exact A|]. split; [exact B|]. split; [intros x Q; apply C; right; exact Q|].
        intros x Q. destruct (D x Q) as [[<-|Q']|Q']; [auto|auto|]. right. intros Q''. apply Q'. right. exact Q''. }
  unfold mark_args. induction phis as [|[d args] phis IH]; intros u l u' l' H; cbn [fold_left fst snd] in H.
  - injection H as <- <-. auto 10.
  - destruct (mem d solve); [|exact (IH _ _ _ _ H)].
    destruct (fold_left _ args (u, l)) as [u1 l1] eqn:E. destruct (One _ _ _ _ _ E) as (A & B & C & D).
    destruct (IH _ _ _ _ H) as (A' & B' & C' & D'). split; [congruence|]. split; [congruence|]. split; [auto|].
    intros a Q. destruct (D' a Q) as [Q'|Q']; [apply D; exact Q'|]. right. intros Q''. apply Q', C, Q''.
Qed.

Lemma combine_seq_nth (ids : list string) : forall s i, nth_error (combine (seq s (length ids)) ids) i = option_map (fun id => (s + i, id)) (nth_error ids i).
Proof.
  induction ids as [|id ids IH]; intros s [|i]; cbn; [reflexivity|reflexivity|rewrite Nat.add_0_r; reflexivity|].
  rewrite IH. destruct (nth_error ids i); [|reflexivity]. cbn. rewrite Nat.add_succ_r. reflexivity.
Qed.

Lemma mark_last_uses_spec b already b' used : rb_last b = no_uses -> mark_last_uses b already = (b', used) ->
  marked_block b' already used /\ exists l, b' = with_last b l.
Proof.
  intros Z H. unfold mark_last_uses in H. rewrite Z in H.
  destruct (mark_copies (rb_copies b) (already, no_uses)) as [u1 l1] eqn:E1.
  destruct (mark_gets (rb_ids b) (u1, l1)) as [u2 l2] eqn:E2.
  destruct (mark_args (rb_phis b) (rb_solve b) (u2, l2)) as [u3 l3] eqn:E3. injection H as <- <-.
  destruct (mark_copies_spec _ _ _ _ _ E1) as (A1 & A2 & A3 & A4).
  destruct (mark_gets_spec _ _ _ _ _ E2) as (B1 & B2 & B3 & B4).
  destruct (mark_args_spec _ _ _ _ _ _ E3) as (C1 & C2 & C3 & C4).
  assert (Pairs : forall p id, In (p, id) (rev (combine (seq 0 (length (rb_ids b))) (rb_ids b))) <-> nth_error (rb_ids b) p = Some id).
  { intros p id. rewrite <- in_rev. split.
    - intros Q. apply In_nth_error in Q as (i & Q). rewrite combine_seq_nth in Q. destruct (nth_error (rb_ids b) i) eqn:N; [|discriminate].
      cbn in Q. injection Q as -> ->. exact N.
    - intros Q. apply (nth_error_In _ p). rewrite combine_seq_nth, Q. reflexivity. }
  assert (Gets : forall x, (exists p id, In (p, id) (rev (combine (seq 0 (length (rb_ids b))) (rb_ids b))) /\ In (Load x) (acc_id id))
                  <-> In (Load x) (flat_map acc_id (rb_ids b))).
  { intros x. rewrite in_flat_map. split.
    - intros (p & id & Q1 & Q2). apply Pairs in Q1. exists id. split; [eapply nth_error_In; eauto|exact Q2].
    - intros (id & Q1 & Q2). apply In_nth_error in Q1 as (p & Q1). exists p, id. split; [apply Pairs; exact Q1|exact Q2]. }
  split; [|exists l3; reflexivity]. constructor; cbn [with_last rb_last rb_copies rb_ids].
  - intros v Q. rewrite C2, B2 in Q. destruct (A4 v Q) as [[]|Q']. exact Q'.
  - intros i id v N G X Q. rewrite C1 in Q. destruct (B4 i Q) as [Q'|(pre & id1 & post & v1 & E & L & NU & F)]; [rewrite A1 in Q'; destruct Q'|].
    assert (E' : combine (seq 0 (length (rb_ids b))) (rb_ids b) = rev post ++ (i, id1) :: rev pre).
    { rewrite <- (rev_involutive (combine _ _)), E, rev_app_distr. cbn. rewrite <- app_assoc. reflexivity. }
    assert (I1 : nth_error (rb_ids b) i = Some id1) by (apply Pairs; rewrite E; apply in_app_iff; right; left; reflexivity).
    assert (id1 = id) by congruence. subst id1. apply acc_load in L as [_ L]. assert (v1 = v) by congruence. subst v1.
    assert (Len : length (rev post) = i).
    { pose proof (combine_seq_nth (rb_ids b) 0 (length (rev post))) as Q1. rewrite E' in Q1. rewrite nth_error_app2, Nat.sub_diag in Q1 by lia.
      cbn [nth_error] in Q1. destruct (nth_error (rb_ids b) (length (rev post))); [|discriminate]. cbn in Q1. congruence. }
    split; [split; intros Q'; apply NU, A3; auto|]. intros j id' Lt N' Q'.
    assert (Ij : nth_error (combine (seq 0 (length (rb_ids b))) (rb_ids b)) j = Some (j, id')) by (rewrite combine_seq_nth, N'; reflexivity).
    rewrite E', nth_error_app2 in Ij by lia. rewrite Len in Ij. destruct (j - i) as [|m] eqn:D; [lia|]. cbn in Ij. apply nth_error_In in Ij.
    apply in_rev in Ij. exact (F _ _ Ij Q').
  - intros a Q. destruct (C4 a Q) as [Q'|Q']; [rewrite B1, A2 in Q'; destruct Q'|].
    rewrite B3, A3, Gets in Q'. tauto.
  - intros x Q. apply C3, B3. rewrite Gets, A3. tauto.
Qed.

(* --- the tree --- *)
Fixpoint dtree_rect' (P : dtree -> Prop) (H : forall b ch, Forall P ch -> P (DNode b ch)) (t : dtree) : P t :=
  match t with
  | DNode b ch => H b ch ((fix go ch : Forall P ch := match ch with [] => Forall_nil P | t :: ch' => Forall_cons t (dtree_rect' P H t) (go ch') end) ch)
  end.

Inductive marked : dtree -> list string -> Prop :=
| mk_node b ch used already useds : Forall2 marked ch useds -> (forall us x, In us useds -> In x us -> In x already) ->
    marked_block b already used -> marked (DNode b ch) used.

(** what the colouring needs of a tree *)
Definition tree_wf (w : webs) (t : dtree) : Prop :=
  forall b, in_tree b t -> NoDup (rb_copies b) /\ forall d args, In (d, args) (rb_phis b) -> In d (rb_solve b) -> same_class w d args.

Definition go_children (av : list bool) : list dtree -> colouring -> result colouring :=
  fix go (ch : list dtree) (k : colouring) : result colouring :=
         match ch with
         | [] => Ok k
         | t' :: ch' => do k' <- assign_tree t' av k; go ch' k'
         end.
Lemma assign_tree_node b ch av k : assign_tree (DNode b ch) av k = do st <- assign_block b (av, k); go_children (fst st) ch (snd st).
Proof. reflexivity. Qed.

Lemma defined_before_app l l' : forall stored, defined_before stored (l ++ l') -> defined_before stored l /\ defined_before (rev (stores l) ++ stored) l'.
Proof.
  induction l as [|[x|x] l IH]; intros stored H; cbn in *; [auto| |].
  - destruct (IH _ H) as [A B]. split; [exact A|]. rewrite <- app_assoc. exact B.
  - destruct H as [I H]. destruct (IH _ H). auto.
Qed.
Lemma defined_before_incl l : forall s s', (forall x, In x s -> In x s') -> defined_before s l -> defined_before s' l.
Proof.
  induction l as [|[x|x] l IH]; intros s s' I H; cbn in *; [auto| |].
  - eapply IH; [|exact H]. intros y [<-|Q]; cbn; auto.
  - destruct H. split; [auto|eapply IH; eauto].
Qed.
Lemma NoDup_app_inv (l l' : list string) : NoDup (l ++ l') -> NoDup l /\ NoDup l' /\ forall x, In x l -> ~ In x l'.
Proof.
  induction l as [|a l IH]; cbn; intros H; [split; [constructor|split; [exact H|intros x []]]|].
  inversion H; subst. destruct (IH H3) as (A & B & C). split; [constructor; [intros Q; apply H2, in_app_iff; auto|exact A]|]. split; [exact B|].
  intros x [<-|Q]; [intros Q'; apply H2, in_app_iff; auto|auto].
Qed.
Lemma block_access_eq b l : block_access b l ->
  l = map Store (phi_defs (rb_solve b) (rb_phis b)) ++ flat_map acc_id (rb_ids b) ++ map Load (rb_copies b).
Proof. intros (li & A & ->). destruct (ids_access_eq _ _ A) as [-> _]. reflexivity. Qed.

Lemma block_step w0 b already used stored held av k av' k' l :
  assign_block b (av, k) = Ok (av', k') -> marked_block b already used -> block_access b l ->
  inv w0 held av k -> (forall x, In x held -> In x stored) ->
  NoDup (stores l) -> (forall x, In x (stores l) -> ~ In x stored) -> defined_before stored l ->
  NoDup (rb_copies b) -> (forall d args, In (d, args) (rb_phis b) -> In d (rb_solve b) -> same_class w0 d args) ->
  (forall x, In x stored -> In x used -> In x held) ->
  exists held', seg w0 stored held k l held' av' k' /\ (forall x, In x stored \/ In x (stores l) -> In x already -> In x held').
Proof.
  intros H Mk BA I S ND Fr DB NC SC Al. apply block_access_eq in BA. subst l. unfold assign_block in H.
  destruct (for_each (assign_phi _ _) (rb_phis b) (av, k)) as [[av1 k1]|] eqn:E1; cbn [bind] in H; [|discriminate].
  destruct (for_each (assign_id _) _ (av1, k1)) as [[av2 k2]|] eqn:E2; cbn [bind] in H; [|discriminate].
  set (defs := phi_defs (rb_solve b) (rb_phis b)) in *. set (acc := flat_map acc_id (rb_ids b)) in *.
  rewrite !stores_app, stores_map, stores_loads, app_nil_r in ND. rewrite !stores_app, stores_map, stores_loads, app_nil_r in Fr.
  destruct (NoDup_app_inv _ _ ND) as (ND1 & ND2 & Dj).
  destruct (defined_before_app _ _ _ DB) as [_ DB1]. rewrite stores_map in DB1. destruct (defined_before_app _ _ _ DB1) as [DB2 DB3].
  destruct (phis_step w0 _ _ _ stored held _ _ _ _ E1 I S ND1) as (h1 & G1 & K1); [intros x Q; apply Fr, in_app_iff; auto|exact SC|].
  destruct (ids_step w0 _ (fun x => In x (rb_copies b) \/ In x already) _ 0 (defs ++ stored) h1 _ _ _ _ E2) as (h2 & G2 & K2).
  - apply G1.
  - intros x Q. destruct (sg_in _ _ _ _ _ _ _ _ G1 x Q) as [Q'|Q']; [|rewrite stores_map in Q']; apply in_app_iff; auto.
  - exact ND2.
  - intros x Q Q'. apply in_app_iff in Q' as [Q'|Q']; [exact (Dj x Q' Q)|]. apply (Fr x); [apply in_app_iff; auto|exact Q'].
  - eapply defined_before_incl; [|exact DB2]. intros x. rewrite !in_app_iff, <- in_rev. tauto.
  - intros x Q La. apply in_app_iff in Q. assert (NA : ~ In x (lu_args (rb_last b))).
    { intros Q'. destruct (mb_args _ _ _ Mk x Q') as (X1 & X2 & X3). tauto. }
    apply K1; [|exact NA]. destruct Q as [Q|Q]; [auto|]. left. apply Al; [exact Q|]. apply (mb_used _ _ _ Mk). tauto.
  - intros i id v N1 N2 N3 N4. destruct (mb_pos _ _ _ Mk i id v N1 N2 N3 N4) as [[X1 X2] X3]. tauto.
  - destruct (copies_step w0 (rb_last b) (fun x => In x already) (rb_copies b) (stores acc ++ defs ++ stored) h2 _ _ _ _ H) as (h3 & G3 & K3).
    + apply G2.
    + intros x Q. destruct (sg_in _ _ _ _ _ _ _ _ G2 x Q); rewrite in_app_iff; auto.
    + exact NC.
    + eapply defined_before_incl; [|exact DB3]. intros x. rewrite !in_app_iff, <- !in_rev. tauto.
    + intros x Q La. apply K2; [|tauto]. rewrite in_app_iff in Q. tauto.
    + intros v _ Q. exact (mb_copies _ _ _ Mk v Q).
    + exists h3. split.
      * eapply seg_app; [exact G1| |].
        -- rewrite stores_map. eapply seg_app; [exact G2|exact G3|]. rewrite stores_loads. intros x [].
        -- rewrite !stores_app, stores_map, stores_loads, app_nil_r. intros x Q. split; [apply Fr, in_app_iff; auto|intros Q'; exact (Dj x Q' Q)].
      * intros x Q La. apply K3; [|exact La]. rewrite !stores_app, stores_map, stores_loads, app_nil_r in Q. rewrite !in_app_iff. rewrite in_app_iff in Q. tauto.
Qed.

Lemma inv_agree w0 held av k k' : inv w0 held av k -> kinv w0 k' -> (forall x, In x held -> lookup x (k_color k') = lookup x (k_color k)) -> inv w0 held av k'.
Proof.
  intros [A B _] K E. constructor.
  - intros x I. rewrite E by exact I. auto.
  - intros x y c Ix Iy. rewrite !E by assumption. apply B; assumption.
  - exact K.
Qed.

Lemma tree_step w0 t : forall used stored held av k k' ls,
  assign_tree t av k = Ok k' -> marked t used -> tree_wf w0 t -> tree_stores t ls -> NoDup ls -> (forall x, In x ls -> ~ In x stored) ->
  inv w0 held av k -> (forall x, In x held -> In x stored) -> (forall x, In x stored -> In x used -> In x held) ->
  (forall p l, tree_path t p -> blocks_access p l -> defined_before stored l) ->
  kinv w0 k' /\ (forall x, ~ In x ls -> lookup x (k_color k') = lookup x (k_color k))
  /\ forall V (val : string -> V) color regs p l, (forall x, In x stored \/ In x ls -> color x = lookup x (k_color k')) ->
       rinv color val held regs -> tree_path t p -> blocks_access p l -> loads_right color val regs l.
Proof.
  induction t as [b ch IH] using dtree_rect'. intros used stored held av k k' ls H Mk Wf TS ND Fr I S Al DB.
  rewrite assign_tree_node in H. destruct (assign_block b (av, k)) as [[av1 k1]|] eqn:EB; cbn [bind fst snd] in H; [|discriminate].
  inversion Mk as [b' ch' used' already useds F2 Inc MB]; subst. inversion TS as [b' ch' lb lc BA TC]; subst.
  destruct (NoDup_app_inv _ _ ND) as (ND1 & ND2 & Dj). destruct (Wf b (it_here b ch)) as [NC SC].
  destruct (block_step w0 b already used stored held av k av1 k1 lb EB MB BA I S ND1) as (h1 & G & K1); auto.
  { intros x Q. apply Fr, in_app_iff. auto. }
  { rewrite <- (app_nil_r lb). apply (DB [b] (lb ++ [])); [constructor|econstructor; [exact BA|constructor]]. }
  assert (DBc : forall t p l, In t ch -> tree_path t p -> blocks_access p l -> defined_before (stores lb ++ stored) l).
  { intros t p l It Tp Ba. destruct (defined_before_app lb l stored) as [_ Q].
    - apply (DB (b :: p) (lb ++ l)); [econstructor; eauto|econstructor; eauto].
    - eapply defined_before_incl; [|exact Q]. intros x. rewrite !in_app_iff, <- in_rev. tauto. }
  assert (Wfc : forall t, In t ch -> tree_wf w0 t) by (intros t It b' Ib; apply Wf; econstructor; eauto).
  assert (Go : forall ch' useds' lc' k1 k', (forall t, In t ch' -> In t ch) -> Forall2 marked ch' useds' -> (forall us, In us useds' -> In us useds) ->
     trees_stores ch' lc' -> NoDup lc' -> (forall x, In x lc' -> ~ In x (stores lb ++ stored)) ->
     go_children av1 ch' k1 = Ok k' -> inv w0 h1 av1 k1 ->
     kinv w0 k' /\ (forall x, ~ In x lc' -> lookup x (k_color k') = lookup x (k_color k1))
     /\ forall V (val : string -> V) color regs t p l, (forall x, In x (stores lb ++ stored) \/ In x lc' -> color x = lookup x (k_color k')) ->
       rinv color val h1 regs -> In t ch' -> tree_path t p -> blocks_access p l -> loads_right color val regs l).
  { clear H Mk TC ND ND2 Dj F2 TS Fr. clear k' . intros ch'. induction ch' as [|t ch' IHc]; intros useds' lc' k2 k' Ic F2 Iu TC ND Fr H Iv.
    - cbn in H. injection H as <-. inversion TC; subst. split; [apply Iv|]. split; [reflexivity|]. intros V val color regs t p l _ _ [].
    - cbn [go_children] in H. destruct (assign_tree t av1 k2) as [k3|] eqn:ET; cbn [bind] in H; [|discriminate].
      inversion F2 as [|? us ? useds'' Mt F2']; subst. inversion TC as [|? ? lt lc'' Tt TC']; subst.
      destruct (NoDup_app_inv _ _ ND) as (NDt & NDc & Djt).
      destruct (proj1 (Forall_forall _ _) IH t (Ic t (or_introl eq_refl)) us (stores lb ++ stored) h1 av1 k2 k3 lt ET Mt) as (Kt & Et & Rt).
      + apply Wfc, Ic. left. reflexivity.
      + exact Tt.
      + exact NDt.
      + intros x Q. apply Fr, in_app_iff. auto.
      + exact Iv.
      + intros x Q. destruct (sg_in _ _ _ _ _ _ _ _ G x Q); apply in_app_iff; auto.
      + intros x Q Q'. apply K1; [apply in_app_iff in Q; tauto|]. eapply Inc; [|exact Q']. apply Iu. left. reflexivity.
      + intros p l Tp Ba. eapply DBc; eauto. apply Ic. left. reflexivity.
      + assert (Hs : forall x, In x h1 -> In x (stores lb ++ stored)) by (intros x Q; destruct (sg_in _ _ _ _ _ _ _ _ G x Q); apply in_app_iff; auto).
        destruct (IHc useds'' lc'' k3 k') as (Kc & Ec & Rc).
        * intros t' Q. apply Ic. right. exact Q.
        * exact F2'.
        * intros us' Q. apply Iu. right. exact Q.
        * exact TC'.
        * exact NDc.
        * intros x Q. apply Fr, in_app_iff. auto.
        * exact H.
        * eapply inv_agree; [exact Iv|exact Kt|]. intros x Q. apply Et. intros Q'. apply (Fr x); [apply in_app_iff; auto|auto].
        * split; [exact Kc|]. split.
          -- intros x Q. rewrite in_app_iff in Q. rewrite Ec, Et; tauto.
          -- intros V val color regs t' p l C R [<-|It] Tp Ba.
             ++ eapply (Rt V val color regs p l); [|exact R|exact Tp|exact Ba].
                intros x Q. rewrite C by (rewrite (in_app_iff lt); tauto). apply Ec. intros Q'. destruct Q as [Q|Q]; [|exact (Djt x Q Q')].
                apply (Fr x); [apply in_app_iff; auto|exact Q].
             ++ eapply (Rc V val color regs t' p l); [|exact R|exact It|exact Tp|exact Ba]. intros x Q. apply C. rewrite (in_app_iff lt). tauto. }
  destruct (Go ch useds lc k1 k') as (Kc & Ec & Rc); auto.
  { intros x Q Q'. apply in_app_iff in Q' as [Q'|Q']; [exact (Dj x Q' Q)|]. apply (Fr x); [apply in_app_iff; auto|exact Q']. }
  { apply G. }
  split; [exact Kc|]. split.
  - intros x Q. rewrite in_app_iff in Q. rewrite Ec by tauto. apply (sg_same _ _ _ _ _ _ _ _ G). tauto.
  - intros V val color regs p l C R Tp Ba. destruct (sg_run _ _ _ _ _ _ _ _ G V val color regs) as [Q1 Q2]; [|exact R|].
    + intros x Q. rewrite C by (rewrite in_app_iff; tauto). apply Ec. intros Q'. destruct Q as [Q|Q]; [|exact (Dj x Q Q')].
      apply (Fr x); [apply in_app_iff; auto|exact Q].
    + inversion Tp as [b' ch'|b' ch' t p' It Tp']; subst.
      * inversion Ba as [|? ? l1 l2 B1 B2]; subst. inversion B2; subst. rewrite app_nil_r.
        apply block_access_eq in B1, BA. subst l1. rewrite <- BA. exact Q1.
      * inversion Ba as [|? ? l1 l2 B1 B2]; subst. assert (l1 = lb) by (apply block_access_eq in B1, BA; congruence). subst l1.
        apply loads_right_app. split; [exact Q1|]. eapply (Rc V val color _ t p' l2); eauto.
        intros x Q. apply C. rewrite in_app_iff. rewrite in_app_iff in Q. tauto.
Qed.

(* --- marking a tree --- *)
Lemma mark_tree_node b ch : mark_tree (DNode b ch) =
  (DNode (fst (mark_last_uses b (concat (map snd (map mark_tree ch))))) (map fst (map mark_tree ch)), snd (mark_last_uses b (concat (map snd (map mark_tree ch))))).
Proof. cbn [mark_tree]. destruct (mark_last_uses b _) as [b' u]. reflexivity. Qed.

Lemma mark_tree_spec t : (forall b, in_tree b t -> rb_last b = no_uses) ->
  marked (fst (mark_tree t)) (snd (mark_tree t))
  /\ (forall b', in_tree b' (fst (mark_tree t)) -> exists b l, in_tree b t /\ b' = with_last b l)
  /\ (forall p', tree_path (fst (mark_tree t)) p' -> exists p, tree_path t p /\ forall l, blocks_access p' l -> blocks_access p l)
  /\ (forall p, tree_path t p -> exists p', tree_path (fst (mark_tree t)) p' /\ forall l, blocks_access p l -> blocks_access p' l)
  /\ (forall ls, tree_stores t ls -> tree_stores (fst (mark_tree t)) ls).
Proof.
  induction t as [b ch IH] using dtree_rect'. intros Z. rewrite mark_tree_node. cbn [fst snd].
  set (already := concat (map snd (map mark_tree ch))).
  destruct (mark_last_uses b already) as [b' used] eqn:M. cbn [fst snd].
  destruct (mark_last_uses_spec b already b' used (Z b (it_here b ch)) M) as [MB (lu & ->)].
  assert (IH' : forall t, In t ch ->
    marked (fst (mark_tree t)) (snd (mark_tree t))
    /\ (forall b', in_tree b' (fst (mark_tree t)) -> exists b l, in_tree b t /\ b' = with_last b l)
    /\ (forall p', tree_path (fst (mark_tree t)) p' -> exists p, tree_path t p /\ forall l, blocks_access p' l -> blocks_access p l)
    /\ (forall p, tree_path t p -> exists p', tree_path (fst (mark_tree t)) p' /\ forall l, blocks_access p l -> blocks_access p' l)
    /\ (forall ls, tree_stores t ls -> tree_stores (fst (mark_tree t)) ls)).
  { intros t It. apply (proj1 (Forall_forall _ _) IH t It). intros b'' Ib. apply Z. econstructor; eauto. }
  assert (InM : forall t', In t' (map fst (map mark_tree ch)) <-> exists t, In t ch /\ t' = fst (mark_tree t)).
  { intros t'. rewrite map_map, in_map_iff. split; intros (t & A & B); exists t; auto. }
  split; [|split; [|split; [|split]]].
  - apply (mk_node _ _ used already (map snd (map mark_tree ch))).
    + clear -IH'. induction ch as [|t ch IHc]; cbn; constructor; [apply IH'; left; reflexivity|]. apply IHc. intros t' Q. apply IH'. right. exact Q.
    + intros us x Q Q'. apply in_concat. eauto.
    + exact MB.
  - intros b'' Ib. inversion Ib as [b0 ch0|b0 b1 ch0 t' It Ib']; subst; [exists b, lu; split; [constructor|reflexivity]|].
    apply InM in It as (t & It & ->). destruct (IH' t It) as (_ & X & _). destruct (X _ Ib') as (b0 & l & Q & E). exists b0, l. split; [econstructor; eauto|exact E].
  - intros p' Tp. inversion Tp as [b0 ch0|b0 ch0 t' p0 It Tp']; subst.
    + exists [b]. split; [constructor|]. intros l Ba. inversion Ba as [|? ? l1 l2 B1 B2]; subst. constructor; [exact B1|]. inversion B2; subst; constructor.
    + apply InM in It as (t & It & ->). destruct (IH' t It) as (_ & _ & X & _). destruct (X _ Tp') as (p & Q & E). exists (b :: p). split; [econstructor; eauto|].
      intros l Ba. inversion Ba as [|? ? l1 l2 B1 B2]; subst. constructor; [exact B1|apply E; exact B2].
  - intros p Tp. inversion Tp as [b0 ch0|b0 ch0 t p0 It Tp']; subst.
    + eexists [_]. split; [constructor|]. intros l Ba. inversion Ba as [|? ? l1 l2 B1 B2]; subst. constructor; [exact B1|]. inversion B2; subst; constructor.
    + destruct (IH' t It) as (_ & _ & _ & X & _). destruct (X _ Tp') as (p' & Q & E). eexists (_ :: p'). split; [apply (tp_down _ _ (fst (mark_tree t))); [apply InM; eauto|exact Q]|].
      intros l Ba. inversion Ba as [|? ? l1 l2 B1 B2]; subst. constructor; [exact B1|apply E; exact B2].
  - intros ls TS. inversion TS as [b0 ch0 lb lc BA TC]; subst. constructor; [exact BA|]. clear -IH' TC. revert lc TC.
    induction ch as [|t ch IHc]; intros lc TC; inversion TC; subst; cbn; constructor; [apply (IH' t (or_introl eq_refl)); assumption|].
    apply IHc; [intros t' Q; apply IH'; right; exact Q|assumption].
Qed.

(** Along every path of the dominator tree (from the root to any block), with
    the colours chosen by the tree scan after the marking of last uses: every
    register load, including the loads for phi functions at the end of a block,
    finds the value its variable was stored with.  The hypotheses: the blocks
    come fresh, the classes are those of the phi functions to be solved, the keys
    of a dictionary are distinct, every variable is stored once, and a load
    comes after a store on the path.

    Partial: this is about paths of the dominator tree.  An execution may go
    through blocks of several branches of that tree, and for such executions
    the property is false: see [tree_scan_join_refuted] and
    [tree_scan_loop_refuted]. *)
Theorem tree_scan_loads_right_partial : forall t phis w n k ls,
  (forall b, in_tree b t -> rb_last b = no_uses /\ NoDup (rb_copies b)) ->
  join_all phis = Ok w ->
  (forall b d args, in_tree b t -> In (d, args) (rb_phis b) -> In d (rb_solve b) -> In (d, args) phis) ->
  tree_stores t ls -> NoDup ls ->
  (forall p l, tree_path t p -> blocks_access p l -> defined_before [] l) ->
  tree_scan (fst (mark_tree t)) w n = Ok k ->
  forall V (val : string -> V) p l, tree_path t p -> blocks_access p l ->
    loads_right (fun x => lookup x (k_color k)) val (fun _ => None) l.
Proof.
  intros t phis w n k ls Z J Ph TS ND DB H V val p l Tp Ba.
  destruct (join_all_inv phis) as (w' & J' & [W _ C D Ed]). assert (w' = w) by congruence. subst w'.
  destruct (mark_tree_spec t) as (M1 & M2 & M3 & M4 & M5); [intros b Ib; apply Z; exact Ib|].
  destruct (M4 p Tp) as (p' & Tp' & E').
  destruct (tree_step w (fst (mark_tree t)) (snd (mark_tree t)) [] [] (repeat true n)
    {| k_color := []; k_total := 0; k_class := empty_classes w; k_webs := w |} k ls) as (_ & _ & R); auto.
  - intros b Ib. destruct (M2 b Ib) as (b0 & lu & Ib0 & ->). split; [apply (Z b0 Ib0)|]. cbn. intros d args I1 I2 a Ia.
    pose proof (Ph b0 d args Ib0 I1 I2) as Q. assert (Od : occurs phis d) by (exists d, args; auto). assert (Oa : occurs phis a) by (exists d, args; auto).
    destruct (rep_ex w d W) as (r & Rd); [apply D; exact Od|]. destruct (rep_ex w a W) as (s & Ra); [apply D; exact Oa|].
    exists r. split; [exact Rd|]. assert (r = s); [|congruence]. apply (C d a r s Rd Ra). apply rst_step. exists args. auto.
  - constructor; [intros x []|intros x y c []|]. constructor; cbn; [exact W|reflexivity|tauto|]. intros x c r Q. discriminate.
  - intros p0 l0 Tp0 Ba0. destruct (M3 p0 Tp0) as (p1 & Tp1 & E1). eapply DB; eauto.
  - apply (R V val _ _ p' l); auto. intros x [].
Qed.
Print Assumptions tree_scan_loads_right_partial.

(* --- the number of registers --- *)
Record cinv (done : list string) (k : colouring) (m : nat) : Prop := {
  ci_lt : forall x c, lookup x (k_color k) = Some c -> c < m;
  ci_all : forall c, c < m -> exists x, lookup x (k_color k) = Some c;
  ci_done : forall x, lookup x (k_color k) <> None -> In x done;
  ci_class : forall r l c, class_colors r (k_class k) = Some l -> In c l -> c < m;
  ci_num : m <= length done
}.
Definition below (av : list bool) (m : nat) : Prop := forall c, nth_error av c = Some false -> c < m.

Lemma below_release v av k av' m : release_colour v av k = Ok av' -> below av m -> below av' m.
Proof.
  unfold release_colour. destruct (lookup v (k_color k)) as [c|]; [|discriminate]. destruct (c <? length av)%nat; [|discriminate].
  intros E B d D. injection E as <-. rewrite nth_set_nth_cases in D. destruct (c =? d)%nat; [|apply B; exact D].
  destruct (c <? length av)%nat; discriminate.
Qed.
Lemma pick_cinv done k m v av av' k' : cinv done k m -> below av m -> ~ In v done -> biased_pick_color v av k = Ok (av', k') ->
  exists m', m <= m' /\ cinv (v :: done) k' m' /\ below av' m'.
Proof.
  intros C B N H.
  assert (G : forall av1 k1 c av2 k2, pick_available_colour v av1 k1 = (c, av2, k2) -> below av1 m ->
    (forall x, x <> v -> lookup x (k_color k1) = lookup x (k_color k)) ->
    exists m', m <= m' /\ c < m' /\ below av2 m' /\ (forall x d, lookup x (k_color k2) = Some d -> d < m')
      /\ (forall d, d < m' -> exists x, lookup x (k_color k2) = Some d) /\ (forall x, lookup x (k_color k2) <> None -> In x (v :: done)) /\ m' <= S (length done)).
  { intros av1 k1 c av2 k2 P B1 E. destruct (pick_available_spec _ _ _ _ _ _ P) as (P1 & P2 & P3 & P4 & P5 & _ & _ & _).
    assert (Cm : c <= m). { destruct (Nat.le_gt_cases c m) as [Q|Q]; [exact Q|]. pose proof (B1 m (P2 m Q)). lia. }
    assert (Lk : forall x, lookup x (k_color k2) = if String.eqb v x then Some c else lookup x (k_color k)).
    { intros x. rewrite P5, lookup_dict_set. destruct (String.eqb_spec v x) as [<-|Q]; [reflexivity|]. apply E. congruence. }
    assert (Lv : lookup v (k_color k) = None). { destruct (lookup v (k_color k)) eqn:Q; [|reflexivity]. destruct N. apply (ci_done _ _ _ C). congruence. }
    exists (Nat.max m (S c)). split; [lia|]. split; [lia|]. split; [|split; [|split; [|split]]].
    - intros d D. destruct (Nat.eq_dec d c) as [->|Q]; [lia|]. rewrite P4 in D by exact Q. pose proof (B1 d D). lia.
    - intros x d. rewrite Lk. destruct (String.eqb_spec v x); intros Q; [injection Q as <-; lia|]. pose proof (ci_lt _ _ _ C x d Q). lia.
    - intros d D. destruct (Nat.eq_dec d c) as [->|Q]; [exists v; rewrite Lk, String.eqb_refl; reflexivity|].
      destruct (ci_all _ _ _ C d) as (x & X); [lia|]. exists x. rewrite Lk. destruct (String.eqb_spec v x) as [<-|]; [congruence|exact X].
    - intros x. rewrite Lk. destruct (String.eqb_spec v x) as [<-|]; [left; reflexivity|]. right. apply (ci_done _ _ _ C). exact H0.
    - pose proof (ci_num _ _ _ C). lia. }
  unfold biased_pick_color in H. destruct (lookup v (w_class (k_webs k))).
  - destruct (find_set (k_webs k) v) as [[cls w]|]; cbn [bind] in H; [|discriminate].
    destruct (class_colors cls (k_class k)) as [colors|] eqn:CC; cbn [of_option bind] in H; [|discriminate].
    destruct (bias_loop v (rev colors) av _) as [[av1 k1]|] eqn:BL; cbn [bind] in H; [|discriminate].
    destruct (bias_loop_spec _ _ _ _ _ _ BL) as (B1 & B2 & B3 & B4 & B5 & B6 & B7). cbn [k_class k_webs k_color] in *.
    destruct (pick_available_colour v av1 k1) as [[c av2] k2] eqn:P. injection H as <- <-.
    destruct (G _ _ _ _ _ P) as (m' & M1 & M2 & M3 & M4 & M5 & M6 & M7); [|exact B5|].
    + intros d D. destruct (B4 d D) as [D'|D']; [apply B; exact D'|]. apply (ci_class _ _ _ C cls colors); [exact CC|apply in_rev; exact D'].
    + exists m'. split; [exact M1|]. split; [|exact M3]. constructor; cbn [k_color k_class]; auto.
      intros r l d Q Il. destruct (pick_available_spec _ _ _ _ _ _ P) as (_ & _ & _ & _ & _ & P6 & _ & _). rewrite P6, B6, class_colors_add in Q.
      destruct (class_colors r (k_class k)) as [l0|] eqn:Q0; [|discriminate]. injection Q as <-.
      destruct (r =? cls)%nat; [apply in_app_iff in Il as [Il|[<-|[]]]; [|exact M2]|]; pose proof (ci_class _ _ _ C r l0 d Q0 Il); lia.
  - destruct (pick_available_colour v av k) as [[c av2] k2] eqn:P. injection H as <- <-.
    destruct (G _ _ _ _ _ P B) as (m' & M1 & M2 & M3 & M4 & M5 & M6 & M7); [auto|].
    exists m'. split; [exact M1|]. split; [|exact M3]. constructor; auto.
    intros r l d Q Il. destruct (pick_available_spec _ _ _ _ _ _ P) as (_ & _ & _ & _ & _ & P6 & _ & _). rewrite P6 in Q.
    pose proof (ci_class _ _ _ C r l d Q Il). lia.
Qed.

Lemma phis_cinv last solve phis : forall done av k av' k' m,
  for_each (assign_phi last solve) phis (av, k) = Ok (av', k') -> cinv done k m -> below av m ->
  NoDup (phi_defs solve phis) -> (forall x, In x (phi_defs solve phis) -> ~ In x done) ->
  exists m', m <= m' /\ cinv (rev (phi_defs solve phis) ++ done) k' m' /\ below av' m'.
Proof.
  induction phis as [|[d args] phis IH]; intros done av k av' k' m H C B ND Fr; cbn [for_each] in H.
  - injection H as <- <-. exists m. auto.
  - destruct (assign_phi last solve (av, k) (d, args)) as [[av1 k1]|] eqn:P; cbn [bind] in H; [|discriminate].
    unfold phi_defs in *. cbn [map filter fst] in *. unfold assign_phi in P. cbn [fst snd] in P. destruct (mem d solve) eqn:M.
    + destruct (for_each _ args av) as [av0|] eqn:R; cbn [bind] in P; [|discriminate].
      assert (B0 : below av0 m).
      { revert av B R. clear. induction args as [|a args IH]; intros av B R; cbn [for_each] in R; [injection R as <-; exact B|].
        destruct (mem a (lu_args last) && is_coloured a k); [|cbn [bind] in R; eapply IH; eauto].
        destruct (release_colour a av k) as [av1|] eqn:E; cbn [bind] in R; [|discriminate]. eapply IH; [|exact R]. eapply below_release; eauto. }
      inversion ND as [|? ? N1 N2]; subst.
      destruct (pick_cinv done k m d av0 av1 k1 C B0) as (m1 & L1 & C1 & B1); [apply Fr; left; reflexivity|exact P|].
      destruct (IH (d :: done) _ _ _ _ _ H C1 B1 N2) as (m2 & L2 & C2 & B2).
      { intros x Q [<-|Q']; [contradiction|]. exact (Fr x (or_intror Q) Q'). }
      exists m2. split; [lia|]. split; [|exact B2]. cbn. rewrite <- app_assoc. exact C2.
    + injection P as <- <-. eauto.
Qed.

Lemma ids_cinv last ids : forall pos done av k av' k' m,
  for_each (assign_id last) (combine (seq pos (length ids)) ids) (av, k) = Ok (av', k') -> cinv done k m -> below av m ->
  NoDup (stores (flat_map acc_id ids)) -> (forall x, In x (stores (flat_map acc_id ids)) -> ~ In x done) ->
  exists m', m <= m' /\ cinv (rev (stores (flat_map acc_id ids)) ++ done) k' m' /\ below av' m'.
Proof.
  induction ids as [|id ids IH]; intros pos done av k av' k' m H C B ND Fr; cbn [for_each combine length seq] in H.
  - injection H as <- <-. exists m. auto.
  - destruct (assign_id last (av, k) (pos, id)) as [[av1 k1]|] eqn:P; cbn [bind] in H; [|discriminate].
    cbn [flat_map] in *. unfold assign_id in P. unfold acc_id in *. fold acc_id in *. destruct (startswith "VGET" id) eqn:G.
    + assert (X : exists v, extract_value id = Some v) by (unfold extract_value; rewrite G; eauto). destruct X as (v & X). rewrite X in *.
      cbn [app stores] in *. destruct (existsb (Nat.eqb pos) (lu_pos last)).
      * cbn [of_option bind] in P. destruct (release_colour v av k) as [av2|] eqn:R; cbn [bind] in P; [|discriminate]. injection P as <- <-.
        eapply IH; eauto. eapply below_release; eauto.
      * injection P as <- <-. eapply IH; eauto.
    + destruct (contains "VSET" id) eqn:Cn.
      * destruct (extract_value id) as [v|] eqn:X; cbn [of_option bind] in P; [|discriminate]. cbn [app stores] in *.
        inversion ND as [|? ? N1 N2]; subst.
        destruct (pick_cinv done k m v av av1 k1 C B) as (m1 & L1 & C1 & B1); [apply Fr; left; reflexivity|exact P|].
        destruct (IH (Datatypes.S pos) (v :: done) _ _ _ _ _ H C1 B1 N2) as (m2 & L2 & C2 & B2).
        { intros x Q [<-|Q']; [contradiction|]. exact (Fr x (or_intror Q) Q'). }
        exists m2. split; [lia|]. split; [|exact B2]. cbn. rewrite <- app_assoc. exact C2.
      * injection P as <- <-. cbn [app stores] in *. eapply IH; eauto.
Qed.

Lemma cinv_perm done done' k m : cinv done k m -> (forall x, In x done -> In x done') -> length done <= length done' -> cinv done' k m.
Proof. intros [A B C D E] I L. constructor; auto. lia. Qed.

Lemma block_cinv b done av k av' k' m l : assign_block b (av, k) = Ok (av', k') -> block_access b l -> cinv done k m -> below av m ->
  NoDup (stores l) -> (forall x, In x (stores l) -> ~ In x done) ->
  exists m', m <= m' /\ cinv (stores l ++ done) k' m' /\ below av' m'.
Proof.
  intros H BA C B ND Fr. apply block_access_eq in BA. subst l. rewrite !stores_app, stores_map, stores_loads, app_nil_r in *.
  unfold assign_block in H.
  destruct (for_each (assign_phi _ _) (rb_phis b) (av, k)) as [[av1 k1]|] eqn:E1; cbn [bind] in H; [|discriminate].
  destruct (for_each (assign_id _) _ (av1, k1)) as [[av2 k2]|] eqn:E2; cbn [bind] in H; [|discriminate].
  destruct (NoDup_app_inv _ _ ND) as (ND1 & ND2 & Dj).
  destruct (phis_cinv _ _ _ done _ _ _ _ m E1 C B ND1) as (m1 & L1 & C1 & B1); [intros x Q; apply Fr, in_app_iff; auto|].
  destruct (ids_cinv _ _ _ _ _ _ _ _ m1 E2 C1 B1 ND2) as (m2 & L2 & C2 & B2).
  { intros x Q Q'. apply in_app_iff in Q' as [Q'|Q']; [apply in_rev in Q'; exact (Dj x Q' Q)|]. apply (Fr x); [apply in_app_iff; auto|exact Q']. }
  assert (X : k' = k2 /\ below av' m2).
  { clear -H B2. revert av2 H B2. induction (rb_copies b) as [|v copies IH]; intros av2 H B2; cbn [for_each] in H; [injection H as <- <-; auto|].
    destruct (mem v (lu_copies (rb_last b))); [|cbn [bind] in H; eapply IH; eauto].
    destruct (release_colour v av2 k2) as [av3|] eqn:R; cbn [bind] in H; [|discriminate]. eapply IH; [exact H|]. eapply below_release; eauto. }
  destruct X as [-> B3]. exists m2. split; [lia|]. split; [|exact B3]. eapply cinv_perm; [exact C2| |].
  - intros x. rewrite !in_app_iff, <- !in_rev. tauto.
  - rewrite !app_length, !rev_length. lia.
Qed.

Lemma tree_cinv t : forall done av k k' m ls, assign_tree t av k = Ok k' -> tree_stores t ls -> cinv done k m -> below av m ->
  NoDup ls -> (forall x, In x ls -> ~ In x done) -> exists m', m <= m' /\ cinv (ls ++ done) k' m'.
Proof.
  induction t as [b ch IH] using dtree_rect'. intros done av k k' m ls H TS C B ND Fr.
  rewrite assign_tree_node in H. destruct (assign_block b (av, k)) as [[av1 k1]|] eqn:EB; cbn [bind fst snd] in H; [|discriminate].
  inversion TS as [b' ch' lb lc BA TC]; subst. destruct (NoDup_app_inv _ _ ND) as (ND1 & ND2 & Dj).
  destruct (block_cinv b done av k av1 k1 m lb EB BA C B ND1) as (m1 & L1 & C1 & B1); [intros x Q; apply Fr, in_app_iff; auto|].
  assert (Go : forall ch' lc' done k1 k' m2, (forall t, In t ch' -> In t ch) -> trees_stores ch' lc' -> NoDup lc' -> (forall x, In x lc' -> ~ In x done) ->
     go_children av1 ch' k1 = Ok k' -> m1 <= m2 -> cinv done k1 m2 -> exists m', m2 <= m' /\ cinv (lc' ++ done) k' m').
  { clear -IH B1. intros ch'. induction ch' as [|t ch' IHc]; intros lc' done k1 k' m2 Ic TC ND Fr H Lm C.
    - cbn in H. injection H as <-. inversion TC; subst. exists m2. auto.
    - cbn [go_children] in H. destruct (assign_tree t av1 k1) as [k3|] eqn:ET; cbn [bind] in H; [|discriminate].
      inversion TC as [|? ? lt lc'' Tt TC']; subst. destruct (NoDup_app_inv _ _ ND) as (NDt & NDc & Djt).
      destruct (proj1 (Forall_forall _ _) IH t (Ic t (or_introl eq_refl)) done av1 k1 k3 m2 lt ET Tt C) as (m3 & L3 & C3).
      + intros c Q. specialize (B1 c Q). lia.
      + exact NDt.
      + intros x Q. apply Fr, in_app_iff. auto.
      + destruct (IHc lc'' (lt ++ done) k3 k' m3) as (m4 & L4 & C4); auto.
        * intros t' Q. apply Ic. right. exact Q.
        * intros x Q Q'. apply in_app_iff in Q' as [Q'|Q']; [exact (Djt x Q' Q)|]. apply (Fr x); [apply in_app_iff; auto|exact Q'].
        * lia.
        * exists m4. split; [lia|]. eapply cinv_perm; [exact C4| |].
          -- intros x. rewrite !in_app_iff. tauto.
          -- rewrite !app_length. lia. }
  destruct (Go ch lc (stores lb ++ done) k1 k' m1) as (m' & L' & C'); auto.
  - intros x Q Q'. apply in_app_iff in Q' as [Q'|Q']; [exact (Dj x Q' Q)|]. apply (Fr x); [apply in_app_iff; auto|exact Q'].
  - exists m'. split; [lia|]. eapply cinv_perm; [exact C'| |].
    + intros x. rewrite !in_app_iff. tauto.
    + rewrite !app_length. lia.
Qed.

Lemma keys_unique_dict {A} (d : list (string * A)) k v : NoDup (map fst d) -> NoDup (map fst (dict_set k v d)).
Proof.
  induction d as [|[k' v'] d IH]; intros H; cbn; [constructor; [intros []|constructor]|].
  inversion H; subst. destruct (String.eqb_spec k' k) as [->|N]; cbn; [constructor; auto|]. constructor; [|auto].
  intros Q. apply H2. revert Q. clear -N. induction d as [|[k'' v''] d IH]; cbn; [intros [Q|[]]; congruence|].
  destruct (String.eqb_spec k'' k) as [->|N']; cbn; [intros [Q|Q]; [congruence|auto]|]. intros [Q|Q]; auto.
Qed.

Lemma biased_keys v av k av' k' : NoDup (map fst (k_color k)) -> biased_pick_color v av k = Ok (av', k') -> NoDup (map fst (k_color k')).
Proof.
  intros ND H.
  assert (PA : forall av k c av' k', pick_available_colour v av k = (c, av', k') -> NoDup (map fst (k_color k)) -> NoDup (map fst (k_color k'))).
  { intros a q c a' q' P N. destruct (pick_available_spec _ _ _ _ _ _ P) as (_ & _ & _ & _ & -> & _). apply keys_unique_dict, N. }
  assert (BL : forall colors av k av' k', bias_loop v colors av k = Ok (av', k') -> NoDup (map fst (k_color k)) -> NoDup (map fst (k_color k'))).
  { clear. induction colors as [|c colors IH]; intros av k av' k' H N; cbn [bias_loop] in H; [injection H as <- <-; exact N|].
    destruct (nth_error av c) as [a|] eqn:A; cbn [of_option bind] in H; [|discriminate]. destruct a; [|eapply IH; eauto].
    unfold pick_specific_colour in H. rewrite A in H. cbn [bind] in H. eapply IH; [exact H|]. cbn. apply keys_unique_dict, N. }
  unfold biased_pick_color in H. destruct (lookup v (w_class (k_webs k))).
  - destruct (find_set (k_webs k) v) as [[cls w]|]; cbn [bind] in H; [|discriminate].
    destruct (class_colors cls (k_class k)) as [colors|]; cbn [of_option bind] in H; [|discriminate].
    destruct (bias_loop v (rev colors) av _) as [[av1 k1]|] eqn:E; cbn [bind] in H; [|discriminate].
    destruct (pick_available_colour v av1 k1) as [[c av2] k2] eqn:P. injection H as <- <-. cbn. eapply PA; [exact P|]. eapply BL; [exact E|]. exact ND.
  - destruct (pick_available_colour v av k) as [[c av2] k2] eqn:P. injection H as <- <-. eapply PA; eauto.
Qed.
Lemma tree_keys t : forall av k k', assign_tree t av k = Ok k' -> NoDup (map fst (k_color k)) -> NoDup (map fst (k_color k')).
Proof.
  induction t as [b ch IH] using dtree_rect'. intros av k k' H ND.
  rewrite assign_tree_node in H. destruct (assign_block b (av, k)) as [[av1 k1]|] eqn:EB; cbn [bind fst snd] in H; [|discriminate].
  assert (N1 : NoDup (map fst (k_color k1))).
  { unfold assign_block in EB.
    destruct (for_each (assign_phi _ _) (rb_phis b) (av, k)) as [[av2 k2]|] eqn:E1; cbn [bind] in EB; [|discriminate].
    destruct (for_each (assign_id _) _ (av2, k2)) as [[av3 k3]|] eqn:E2; cbn [bind] in EB; [|discriminate].
    assert (N2 : NoDup (map fst (k_color k2))).
    { clear -ND E1. revert av k ND E1. induction (rb_phis b) as [|[d args] phis IH]; intros av k ND E1; cbn [for_each] in E1; [injection E1 as <- <-; exact ND|].
      destruct (assign_phi _ _ (av, k) (d, args)) as [[av4 k4]|] eqn:P; cbn [bind] in E1; [|discriminate]. eapply IH; [|exact E1].
      unfold assign_phi in P. destruct (mem _ _); [|injection P as <- <-; exact ND]. destruct (for_each _ _ av) as [av5|]; cbn [bind] in P; [|discriminate]. eapply biased_keys; eauto. }
    assert (N3 : NoDup (map fst (k_color k3))).
    { clear -N2 E2. revert av2 k2 N2 E2. generalize 0. induction (rb_ids b) as [|id ids IH]; intros pos av2 k2 N2 E2; cbn [for_each combine seq length] in E2; [injection E2 as <- <-; exact N2|].
      destruct (assign_id _ (av2, k2) (pos, id)) as [[av4 k4]|] eqn:P; cbn [bind] in E2; [|discriminate]. eapply IH; [|exact E2].
      unfold assign_id in P. destruct (startswith "VGET" id).
      - destruct (existsb _ _); [|injection P as <- <-; exact N2]. destruct (extract_value id); cbn [of_option bind] in P; [|discriminate].
        destruct (release_colour _ _ _); cbn [bind] in P; [|discriminate]. injection P as <- <-. exact N2.
      - destruct (contains "VSET" id); [|injection P as <- <-; exact N2]. destruct (extract_value id); cbn [of_option bind] in P; [|discriminate]. eapply biased_keys; eauto. }
    assert (k1 = k3); [|subst; exact N3]. clear -EB. revert av3 EB. induction (rb_copies b) as [|v copies IH]; intros av3 H; cbn [for_each] in H; [injection H as <- <-; auto|].
    destruct (mem v (lu_copies (rb_last b))); [|cbn [bind] in H; eapply IH; eauto].
    destruct (release_colour v av3 k3) as [av4|]; cbn [bind] in H; [|discriminate]. eapply IH; exact H. }
  clear EB. revert k1 H N1. induction ch as [|t ch IHc]; intros k1 H N1; cbn [go_children] in H; [injection H as <-; exact N1|].
  destruct (assign_tree t av1 k1) as [k3|] eqn:ET; cbn [bind] in H; [|discriminate]. inversion IH; subst. eapply IHc; eauto.
Qed.

(** The number of registers reported covers all the registers used: registers
    are numbered from 0 without gaps, [num_regs] is their number, and there are
    no more of them than stored variables. *)
Theorem num_regs_covers : forall t w n k ls,
  tree_stores t ls -> NoDup ls -> tree_scan t w n = Ok k ->
  (forall c, c < num_regs k <-> exists x, lookup x (k_color k) = Some c) /\ num_regs k <= length ls.
Proof.
  intros t w n k ls TS ND H. unfold tree_scan in H.
  assert (KU : NoDup (map fst (k_color k))) by (eapply tree_keys; [exact H|constructor]).
  destruct (tree_cinv t [] _ _ k 0 ls H TS) as (m & _ & C).
  - constructor; cbn; try discriminate; try lia; [congruence|]. intros r l c Q I.
    assert (l = []); [|subst; destruct I]. revert Q. unfold empty_classes. generalize (filter (fun p => (0 <? snd p)%nat) (combine (seq 0 (length (w_nelems w))) (w_nelems w))).
    clear. intros ps. induction ps as [|[a b] ps IH]; cbn; [discriminate|]. destruct (a =? r)%nat; [congruence|exact IH].
  - intros c Q. apply nth_error_In, repeat_spec in Q. discriminate.
  - exact ND.
  - intros x _ [].
  - rewrite app_nil_r in C.
    assert (E : num_regs k = m).
    { unfold num_regs. rewrite <- (seq_length m 0). apply Permutation_length, NoDup_Permutation; [apply NoDup_nodup|apply seq_NoDup|].
      intros c. rewrite nodup_In, in_seq, in_map_iff. split.
      - intros ([x d] & E & I). cbn in E. subst d. split; [lia|]. apply (ci_lt _ _ _ C x). apply LevelProps.lookup_NoDup; assumption.
      - intros [_ L]. destruct (ci_all _ _ _ C c L) as (x & X). exists (x, c). split; [reflexivity|]. apply RemoveProps.lookup_In in X. exact X. }
    rewrite E. split; [|apply C]. intros c. split; [apply C|]. intros (x & X). apply (ci_lt _ _ _ C x c X).
Qed.
Print Assumptions num_regs_covers.
