(** The combination of blocks as a whole (C23): representatives of merged blocks,
    the pairs to merge, and the executions of the result. *)
From Coq Require Import Relations.
From Verif Require Import Base UtilModel UtilProps UnifyProps LiveModel CfgModel CfgSpec CfgProps CombineProps.
Open Scope string_scope. Open Scope list_scope.

(** ** Representatives *)
(** [rooted d n x r]: following the dictionary [n] times from [x] ends in [r],
    which the dictionary does not send elsewhere. *)
Inductive rooted (d : list (string * string)) : nat -> string -> string -> Prop :=
| rooted_here x : (lookup x d = None \/ lookup x d = Some x) -> rooted d 0 x x
| rooted_step n x y r : lookup x d = Some y -> y <> x -> rooted d n y r -> rooted d (S n) x r.

Lemma rooted_fun d n x r : rooted d n x r -> forall m s, rooted d m x s -> n = m /\ r = s.
Proof.
  induction 1 as [x H|n x y r H N R IH]; intros m s Q; inversion Q as [? H'|? ? y' ? H' N' R']; subst; auto.
  - destruct H; congruence.
  - destruct H'; congruence.
  - assert (y' = y) by congruence; subst y'. destruct (IH _ _ R'); subst; auto.
Qed.
Lemma rooted_root d n x r : rooted d n x r -> rooted d 0 r r.
Proof. induction 1; auto. constructor; auto. Qed.

Lemma rooted_path d n x r : rooted d n x r ->
  exists l, length l = n /\ (forall z, In z l -> In z (map fst d) /\ exists k, 0 < k <= n /\ rooted d k z r) /\ NoDup l.
Proof.
  induction 1 as [x H|n x y r H N R (l & L & I & D)]; [exists []; split; [reflexivity|]; split; [simpl; tauto|constructor]|].
  exists (x :: l). split; [simpl; congruence|]. split.
  - intros z [->|Iz]; [split; [eapply lookup_In_key; eauto|]|].
    + exists (S n). split; [lia|]. econstructor; eauto.
    + destruct (I z Iz) as (A & k & B & Q). split; [exact A|]. exists k. split; [lia|exact Q].
  - constructor; [|exact D]. intros Q. destruct (I x Q) as (_ & k & B & Rk). assert (S1 : rooted d (S n) x r) by (econstructor; eauto).
    destruct (rooted_fun _ _ _ _ S1 _ _ Rk). lia.
Qed.
Lemma rooted_bound d n x r : rooted d n x r -> n <= length d.
Proof.
  intros H. destruct (rooted_path _ _ _ _ H) as (l & L & I & D). rewrite <- L, <- (map_length fst d).
  apply NoDup_incl_length; [exact D|]. intros z Iz. apply I, Iz.
Qed.

(** Path compression changes no representative. *)
Lemma rooted_compress d n x r : rooted d n x r -> n <> 0 -> forall m y s, rooted d m y s -> exists m', rooted (dict_set x r d) m' y s.
Proof.
  intros H Nn m y s Q. assert (Nr : r <> x). { intros ->. assert (Z := rooted_root _ _ _ _ H). destruct (rooted_fun _ _ _ _ H _ _ Z). congruence. }
  induction Q as [y Hy|m y z s Hy Ny Q IH].
  - exists 0. constructor. rewrite lookup_dict_set. destruct (String.eqb_spec x y); [|exact Hy]. subst.
    inversion H as [? ?|? ? y' ? H' N' R']; subst; [congruence|]. destruct Hy; congruence.
  - destruct (string_dec y x) as [->|Nyx].
    + assert (r = s). { assert (Z : rooted d (S m) x s) by (econstructor; eauto). destruct (rooted_fun _ _ _ _ H _ _ Z). auto. } subst s.
      exists 1. apply rooted_step with (y := r); [|exact Nr|].
      * rewrite lookup_dict_set, String.eqb_refl. reflexivity.
      * constructor. rewrite lookup_dict_set. destruct (String.eqb_spec x r); [congruence|]. assert (Z := rooted_root _ _ _ _ H). inversion Z; auto.
    + destruct IH as (m' & IH). exists (S m'). apply rooted_step with (y := z); auto. rewrite lookup_dict_set. destruct (String.eqb_spec x y); [congruence|exact Hy].
Qed.

Definition same_roots (d d' : list (string * string)) : Prop := forall x r, (exists n, rooted d n x r) <-> (exists n, rooted d' n x r).
Definition all_rooted (d : list (string * string)) : Prop := forall x, exists n r, rooted d n x r.
Lemma same_roots_of_all d d' : all_rooted d -> (forall n x r, rooted d n x r -> exists m, rooted d' m x r) -> same_roots d d' /\ all_rooted d'.
Proof.
  intros A F. split.
  - intros x r. split; [intros (n & H); eauto|]. intros (n & H). destruct (A x) as (m & s & Q). destruct (F _ _ _ Q) as (k & Q'). destruct (rooted_fun _ _ _ _ H _ _ Q') as [_ ->]. eauto.
  - intros x. destruct (A x) as (m & s & Q). destruct (F _ _ _ Q) as (k & Q'). eauto.
Qed.

Lemma union_find_ok d : all_rooted d -> forall n x r, rooted d n x r -> forall fuel, n < fuel ->
  exists d', union_find_search fuel x d = Ok (r, d') /\ same_roots d d' /\ all_rooted d' /\ map fst d' = map fst d.
Proof.
  intros A. induction 1 as [x H|n x y r H N R IH]; intros fuel B; (destruct fuel as [|fuel]; [lia|]); cbn [union_find_search].
  - exists d. split; [|repeat split; auto]. destruct H as [H|H]; rewrite H, String.eqb_refl; reflexivity.
  - rewrite H. destruct (String.eqb_spec y x); [congruence|]. destruct (IH fuel) as (d' & E & SR & A' & K); [lia|].
    rewrite E. cbn [bind fst snd]. exists (dict_set x r d'). split; [reflexivity|].
    assert (X : exists k, rooted d' k x r) by (apply SR; exists (S n); econstructor; eauto). destruct X as (k & X).
    assert (k <> 0). { intros ->. assert (r = x) by (inversion X; auto). subst r. assert (Z : rooted d (S n) x x) by (econstructor; eauto).
      assert (Z0 := rooted_root _ _ _ _ Z). destruct (rooted_fun _ _ _ _ Z _ _ Z0). congruence. }
    destruct (same_roots_of_all d' (dict_set x r d') A') as [S2 A2]; [intros; eapply rooted_compress; eauto|].
    split; [intros z s; rewrite (SR z s); apply S2|]. split; [exact A2|]. rewrite dict_set_same_keys; [exact K|]. rewrite K. eapply lookup_In_key; eauto.
Qed.

(** The searches of the pass never run out of fuel: [length d + 1] steps are
    enough to find the representative of any name, and looking a name up
    changes no representative. *)
Theorem search_fuel : forall d x, all_rooted d ->
  exists r d', union_find_search (length d + 1) x d = Ok (r, d') /\ (exists n, rooted d n x r) /\ same_roots d d' /\ all_rooted d' /\ map fst d' = map fst d.
Proof.
  intros d x A. destruct (A x) as (n & r & R). assert (B := rooted_bound _ _ _ _ R).
  destruct (union_find_ok d A n x r R (length d + 1)) as (d' & E & S & A' & K); [lia|]. exists r, d'. eauto 8.
Qed.

(** Sending the representative [b] to the representative [a]. *)
Lemma rooted_union d a b : rooted d 0 a a -> rooted d 0 b b -> a <> b ->
  forall n x r, rooted d n x r -> exists m, rooted (dict_set b a (dict_set a a d)) m x (if String.eqb r b then a else r).
Proof.
  intros RA RB N n x r H. set (d' := dict_set b a (dict_set a a d)).
  assert (LB : lookup b d' = Some a) by (unfold d'; rewrite lookup_dict_set, String.eqb_refl; reflexivity).
  assert (LA : lookup a d' = Some a) by (unfold d'; rewrite !lookup_dict_set, String.eqb_refl; destruct (String.eqb_spec b a); congruence).
  assert (LO : forall z, z <> a -> z <> b -> lookup z d' = lookup z d).
  { intros z N1 N2. unfold d'. rewrite !lookup_dict_set. destruct (String.eqb_spec b z); [congruence|]. destruct (String.eqb_spec a z); congruence. }
  assert (A0 : rooted d' 0 a a) by (constructor; auto).
  induction H as [x H|n x y r H Ny R IH].
  - destruct (String.eqb_spec x b) as [->|Nb]; [exists 1; econstructor; eauto|]. exists 0. constructor.
    destruct (string_dec x a) as [->|Na]; [auto|]. rewrite LO by auto. exact H.
  - destruct IH as (m & IH). exists (S m). apply rooted_step with (y := y); auto. rewrite LO; [exact H| |]; intros ->; [inversion RA as [? [Q|Q]|]|inversion RB as [? [Q|Q]|]]; congruence.
Qed.

(** ** The pairs to merge *)
Definition alone (g : clist) (x y : string) : Prop :=
  edge g x y /\ (forall z, edge g x z -> z = y) /\ (forall z, edge g z y -> z = x).

Lemma edge_succ g x y b : lookup x (cl_blocks g) = Some b -> (edge g x y <-> In y (successors b)).
Proof.
  intros L. rewrite edge_departures. unfold departures. rewrite L. symmetry. apply count_In.
Qed.
Lemma In_graph_preds g x y : NoDup (map fst (cl_blocks g)) -> (In x (graph_preds g y) <-> edge g x y).
Proof.
  intros ND. unfold graph_preds. rewrite in_map_iff. split.
  - intros ([k b] & <- & H). apply filter_In in H as [H M]. simpl in *. apply (edge_succ g k y b); [|apply mem_In; exact M].
    clear M. revert ND H. generalize (cl_blocks g). induction l as [|[k' b'] l IH]; simpl; [tauto|]. intros ND. inversion ND; subst.
    intros [Q|Q]; [injection Q as -> ->; rewrite String.eqb_refl; reflexivity|]. destruct (String.eqb_spec k' k); [|auto]. subst. exfalso. apply H1. apply (in_map fst _ (k, b)). exact Q.
  - intros E. destruct (key_lookup x _ (edge_source _ _ _ E)) as (b & L). exists (x, b). split; [reflexivity|]. apply filter_In. split.
    + clear -L. revert L. generalize (cl_blocks g). induction l as [|[k' b'] l IH]; simpl; [discriminate|]. destruct (String.eqb_spec k' x); [|auto]. intros Q; injection Q as ->; subst; auto.
    + simpl. apply mem_In. apply (edge_succ g x y b L). exact E.
Qed.
Lemma graph_preds_NoDup g y : NoDup (map fst (cl_blocks g)) -> NoDup (graph_preds g y).
Proof.
  unfold graph_preds. generalize (cl_blocks g). induction l as [|[k b] l IH]; simpl; [constructor|]. intros H; inversion H; subst.
  destruct (mem y (successors b)); simpl; auto. constructor; auto. intros Q. apply H2. apply in_map_iff in Q as ([k' b'] & <- & Q). apply filter_In in Q as [Q _]. apply (in_map fst _ _ Q).
Qed.

(** [nodes_to_merge] lists, in the order of the blocks, pairs of blocks that are
    each other's only successor and only predecessor. *)
Lemma nodes_to_merge_alone split_ops fns g : consistent g ->
  exists pairs, nodes_to_merge split_ops fns g = Ok pairs /\ NoDup (map fst pairs)
    /\ (forall x y, In (x, y) pairs <-> alone g x y
         /\ exists bx bY, lookup x (cl_blocks g) = Some bx /\ lookup y (cl_blocks g) = Some bY /\ can_merge split_ops fns bx bY = true).
Proof.
  intros C. unfold nodes_to_merge.
  set (step := fun acc node => match graph_succs g node with
      | [target] => do fb <- get_block node g; do sb <- get_block target g;
          Ok (if Nat.eqb (length (graph_preds g target)) 1 && can_merge split_ops fns fb sb then acc ++ [(node, target)] else acc)
      | _ => Ok acc end).
  assert (G : forall nodes acc, NoDup nodes -> NoDup (map fst acc) -> (forall x, In x nodes -> In x (map fst (cl_blocks g)) /\ ~ In x (map fst acc)) ->
    exists pairs, for_each step nodes acc = Ok pairs /\ NoDup (map fst pairs)
    /\ (forall x y, In (x, y) pairs <-> In (x, y) acc \/ In x nodes /\ alone g x y
         /\ exists bx bY, lookup x (cl_blocks g) = Some bx /\ lookup y (cl_blocks g) = Some bY /\ can_merge split_ops fns bx bY = true)).
  { induction nodes as [|n nodes IH]; intros acc N1 N2 I; [exists acc; simpl; repeat split; auto; intros [H|[[] _]]; auto|].
    inversion N1 as [|? ? Nn N1']; subst. destruct (I n (or_introl eq_refl)) as [In1 In2]. destruct (key_lookup n _ In1) as (bn & Ln).
    cbn [for_each]. assert (S1 : step acc n = Ok acc /\ (forall y, ~ (alone g n y /\ exists bx bY, lookup n (cl_blocks g) = Some bx /\ lookup y (cl_blocks g) = Some bY /\ can_merge split_ops fns bx bY = true))
      \/ exists y bY, step acc n = Ok (acc ++ [(n, y)]) /\ alone g n y /\ lookup y (cl_blocks g) = Some bY /\ can_merge split_ops fns bn bY = true).
    { unfold step, graph_succs. rewrite Ln. destruct (nodup string_dec (successors bn)) as [|y [|z l]] eqn:ND.
      - left. split; [reflexivity|]. intros y [(E & _) _]. apply (edge_succ g n y bn Ln) in E. apply (nodup_In string_dec) in E. rewrite ND in E. destruct E.
      - assert (SU : forall z, edge g n z <-> z = y).
        { intros z. rewrite (edge_succ g n z bn Ln). rewrite <- (nodup_In string_dec), ND. simpl. intuition. }
        assert (E : edge g n y) by (apply SU; reflexivity). destruct (key_lookup y _ (edge_target g n y C E)) as (bY & Ly).
        unfold get_block. rewrite Ln, Ly. cbn [of_option bind].
        assert (PP := graph_preds_NoDup g y (c_keys g C)). assert (PI := fun x => In_graph_preds g x y (c_keys g C)).
        destruct (Nat.eqb_spec (length (graph_preds g y)) 1) as [L1|L1]; cbn [andb].
        + assert (AL : alone g n y). { split; [exact E|]. split; [intros z Z; apply SU, Z|]. intros z Z. apply PI in Z. apply PI in E. destruct (graph_preds g y) as [|w [|w' l]]; simpl in L1, Z, E; try lia. destruct Z as [<-|[]], E as [<-|[]]. reflexivity. }
          destruct (can_merge split_ops fns bn bY) eqn:CM.
          * right. exists y, bY. auto.
          * left. split; [reflexivity|]. intros y' ((E' & _) & bx & bY' & H1 & H2 & H3). apply SU in E'. subst. congruence.
        + left. split; [reflexivity|]. intros y' ((E' & _ & U) & _). apply SU in E'. subst y'. apply L1. apply PI in E.
          assert (U' : forall z, In z (graph_preds g y) -> z = n) by (intros z Z; apply U, PI, Z). destruct (graph_preds g y) as [|w [|w' l]]; [destruct E|reflexivity|].
          exfalso. inversion PP as [|? ? P1 P2]; subst. apply P1. left. rewrite (U' w), (U' w'); simpl; auto.
      - left. split; [reflexivity|]. intros y' ((E' & S & _) & _).
        assert (SU : forall w, In w (y :: z :: l) -> w = y') by (intros w W; rewrite <- ND in W; apply nodup_In in W; apply S, (edge_succ g n w bn Ln), W).
        assert (N := NoDup_nodup string_dec (successors bn)). rewrite ND in N. inversion N as [|? ? P1 P2]; subst. apply P1. left. rewrite (SU y), (SU z); simpl; auto. }
    destruct S1 as [[S1 NO]|(y & bY & S1 & AL & Ly & CM)]; rewrite S1; cbn [bind].
    - destruct (IH acc N1' N2) as (pairs & E & ND & P). { intros x Ix. split; apply I; simpl; auto. }
      exists pairs. split; [exact E|]. split; [exact ND|]. intros x y. rewrite P. simpl. split; [intuition|]. intros [H|[[<-|H] H']]; [auto| |auto]. exfalso. apply (NO y), H'.
    - destruct (IH (acc ++ [(n, y)]) N1') as (pairs & E & ND & P).
      + rewrite map_app. simpl. apply NoDup_app_remove_r in N2 || idtac. apply NoDup_Add with (a := n) (l := map fst acc); [|split; auto]. rewrite <- (app_nil_r (map fst acc)) at 1. apply Add_app.
      + intros x Ix. destruct (I x (or_intror Ix)) as [J1 J2]. split; [exact J1|]. rewrite map_app, in_app_iff. simpl. intros [Q|[Q|[]]]; [auto|]. subst. auto.
      + exists pairs. split; [exact E|]. split; [exact ND|]. intros x z. rewrite P, in_app_iff. simpl. split.
        * intros [[H|[H|[]]]|H]; [auto| |tauto]. injection H as <- <-. right. split; [auto|]. split; [exact AL|]. exists bn, bY. auto.
        * intros [H|[[<-|H] H']]; [auto| |auto]. left. right. left. destruct H' as ((E' & _) & _). destruct AL as (_ & S & _). rewrite (S z E'). reflexivity. }
  destruct (G (map fst (cl_blocks g)) []) as (pairs & E & ND & P); [apply c_keys, C|constructor|simpl; tauto|].
  exists pairs. split; [exact E|]. split; [exact ND|]. intros x y. rewrite P. simpl. split; [tauto|]. intros [AL H]. right. split; [|auto]. eapply edge_source, AL.
Qed.

(** ** The pass *)
(** Blocks with distinct targets, and a condition only where there is a choice. *)
Record tidy (g : clist) : Prop := {
  t_targets : forall x b, lookup x (cl_blocks g) = Some b -> NoDup (successors b);
  t_conds : forall x b, lookup x (cl_blocks g) = Some b -> cb_cond b <> None -> length (successors b) = 2
}.
(** No chain of blocks to merge ends with a jump to its beginning. *)
Definition no_closed_chain (g : clist) : Prop := forall a b, clos_trans string (alone g) a b -> ~ edge g b a.
Definition start_first (g : clist) : Prop := forall s x, cl_start g = Some s -> ~ edge g x s.

(** A sequence of merges. *)
Inductive merges (g : clist) : clist -> Prop :=
| merges_none : merges g g
| merges_more a b ba bb g1 g2 : merges g g1 -> consistent g1 -> tidy g1 -> mergeable g1 a b ba bb -> cb_cond ba = None -> merge_blocks a b g1 = Ok g2 -> merges g g2.

(** The state of the pass: [find] gives the block a name was merged into. *)
Record pass_inv (g0 : clist) (pairs : list (string * string)) (g : clist) (d : list (string * string)) : Prop := {
  pi_cons : consistent g;
  pi_tidy : tidy g;
  pi_equiv : equivalent g0 g;
  pi_merges : merges g0 g;
  pi_start : start_first g;
  pi_roots : all_rooted d;
  pi_fst : NoDup (map fst pairs);
  pi_pairs : forall x y, In (x, y) pairs -> rooted d 0 y y /\ exists n x', rooted d n x x' /\ alone g x' y;
  pi_inj : forall x y z, In (x, y) pairs -> In (z, y) pairs -> x = z;
  pi_chain : forall a b, clos_trans string (fun u w => exists x n, In (x, w) pairs /\ rooted d n x u) a b -> ~ edge g b a
}.

Lemma alone_mergeable g x y : consistent g -> tidy g -> start_first g -> alone g x y -> ~ edge g y x -> x <> y ->
  exists bx bY, mergeable g x y bx bY /\ cb_cond bx = None.
Proof.
  intros C T SF (E & S & P) NE N. destruct (key_lookup x _ (edge_source _ _ _ E)) as (bx & Lx). destruct (key_lookup y _ (edge_target _ _ _ C E)) as (bY & Ly).
  assert (SX : forall z, In z (successors bx) <-> z = y). { intros z. rewrite <- (edge_succ g x z bx Lx). split; [apply S|intros ->; exact E]. }
  exists bx, bY. split.
  - constructor; auto.
    + intros z Iz. apply P. apply edge_departures. rewrite <- (c_links g C). unfold arrivals. rewrite Ly. apply count_In. exact Iz.
    + rewrite <- (edge_succ g y x bY Ly). exact NE.
    + eapply t_targets; eauto.
    + intros Q. apply (SF _ _ Q E).
  - destruct (cb_cond bx) eqn:CB; [|reflexivity]. exfalso. assert (L2 : length (successors bx) = 2) by (eapply t_conds; eauto; congruence).
    assert (ND := t_targets g T x bx Lx). destruct (successors bx) as [|u [|w [|? ?]]]; try discriminate.
    assert (u = y) by (apply SX; simpl; auto). assert (w = y) by (apply SX; simpl; auto). subst. inversion ND; subst. simpl in *. tauto.
Qed.

Lemma combine_step_inv g0 x y pairs g d : pass_inv g0 ((x, y) :: pairs) g d ->
  exists g' d', combine_step (g, d) (x, y) = Ok (g', d') /\ pass_inv g0 pairs g' d'.
Proof.
  intros [C T EQ MS SF AR FS PP INJ CH]. destruct (PP x y (or_introl eq_refl)) as (RY & n & x' & RX & AL).
  assert (STEP : (fun u w => exists x0 n0, In (x0, w) ((x, y) :: pairs) /\ rooted d n0 x0 u) x' y) by (exists x, n; simpl; auto).
  assert (NE : ~ edge g y x') by (apply CH, t_step, STEP).
  assert (N : x' <> y). { intros ->. apply NE. apply AL. }
  destruct (alone_mergeable g x' y C T SF AL NE N) as (bx & bY & M & CN).
  unfold combine_step. cbn [fst snd].
  destruct (search_fuel d x AR) as (r1 & d1 & E1 & (n1 & R1) & S1 & A1 & K1). destruct (rooted_fun _ _ _ _ R1 _ _ RX) as [_ ->].
  rewrite E1. cbn [bind fst snd].
  assert (LEN : length d = length d1) by (rewrite <- (map_length fst d), <- K1, map_length; reflexivity). rewrite LEN.
  destruct (search_fuel d1 y A1) as (r2 & d2 & E2 & (n2 & R2) & S2 & A2 & K2).
  assert (r2 = y). { assert (Q : exists m, rooted d1 m y y) by (apply S1; eauto). destruct Q as (m & Q). destruct (rooted_fun _ _ _ _ R2 _ _ Q). auto. } subst r2.
  rewrite E2. cbn [bind fst snd].
  destruct (merge_blocks_preserves_partial g x' y bx bY C M) as (g' & m & E & C' & Lm & LmY & _ & _ & _ & _ & MC & MJ & MF & K & OTH & ST).
  rewrite E. cbn [bind]. exists g', (dict_set y x' (dict_set x' x' d2)). split; [reflexivity|].
  assert (D := fun u w => merge_departures g x' y bx bY g' u w C M E).
  assert (ED : forall u w, edge g' u w <-> (u = x' /\ edge g y w) \/ (u <> x' /\ u <> y /\ edge g u w)).
  { intros u w. rewrite !edge_departures, D. destruct (String.eqb_spec u x'); [intuition; subst; congruence|]. destruct (String.eqb_spec u y); [|intuition]. split; [lia|intuition]. }
  (* representatives *)
  assert (S02 : same_roots d d2) by (intros u r; rewrite (S1 u r); apply S2).
  assert (RX2 : rooted d2 0 x' x'). { assert (Q := rooted_root _ _ _ _ RX). destruct (proj1 (S02 x' x') (ex_intro _ _ Q)) as (k & Q'). apply (rooted_root _ _ _ _ Q'). }
  assert (RY2 : rooted d2 0 y y). { destruct (proj1 (S02 y y) (ex_intro _ _ RY)) as (k & Q'). apply (rooted_root _ _ _ _ Q'). }
  assert (NEW : forall n u r, rooted d n u r -> exists m, rooted (dict_set y x' (dict_set x' x' d2)) m u (if String.eqb r y then x' else r)).
  { intros k u r Q. destruct (proj1 (S02 u r) (ex_intro _ _ Q)) as (k2 & Q2). apply (rooted_union d2 x' y RX2 RY2 N k2 u r Q2). }
  set (d' := dict_set y x' (dict_set x' x' d2)) in *.
  assert (FS' : NoDup (map fst pairs)) by (inversion FS; auto). assert (NX : forall w, ~ In (x, w) pairs) by (intros w Iw; inversion FS; subst; apply H1, (in_map fst _ _ Iw)).
  (* the first block of another pair *)
  assert (OP : forall u w, In (u, w) pairs -> w <> y /\ exists k u', rooted d k u u' /\ alone g u' w /\ u' <> x').
  { intros u w Iu. assert (Nw : w <> y). { intros ->. assert (u = x) by (eapply INJ; simpl; eauto). subst. apply (NX _ Iu). }
    split; [exact Nw|]. destruct (PP u w (or_intror Iu)) as (_ & k & u' & Ru & Au). exists k, u'. split; [exact Ru|]. split; [exact Au|].
    intros ->. destruct AL as (EA & SA & _). destruct Au as (EU & _). apply Nw. apply SA, EU. }
  constructor.
  - exact C'.
  - assert (OB : forall z b, lookup z (cl_blocks g') = Some b -> exists z0 b0, lookup z0 (cl_blocks g) = Some b0 /\ successors b = successors b0 /\ cb_cond b = cb_cond b0).
    { intros z b L. destruct (string_dec z x') as [->|Nz].
      - assert (b = m) by congruence; subst b. exists y, bY. split; [apply M|]. unfold successors. rewrite MJ, MF. auto.
      - assert (Iz := lookup_In_key _ _ _ L). apply K in Iz as [Iz Nzy]. destruct (key_lookup z _ Iz) as (bz & Lz). destruct (OTH z bz Lz Nz Nzy) as (bz' & Lz' & RL).
        assert (b = bz') by congruence; subst b. exists z, bz. destruct RL as (_ & _ & RC & _ & RJ & RF & _). rewrite option_subst_id in RJ, RF. unfold successors. rewrite RJ, RF. auto. }
    constructor; intros z b L; destruct (OB z b L) as (z0 & b0 & L0 & Q1 & Q2); rewrite Q1; [eapply t_targets; eauto|rewrite Q2; eapply t_conds; eauto].
  - eapply equivalent_trans; [exact EQ|]. eapply merge_blocks_equivalent_partial; eauto.
  - eapply merges_more; eauto.
  - intros s z Hs Ez. rewrite ST in Hs. apply ED in Ez. destruct Ez as [[_ Ez]|(_ & _ & Ez)]; apply (SF s _ Hs Ez).
  - intros u. destruct (AR u) as (k & r & Q). destruct (NEW k u r Q) as (k' & Q'). eauto.
  - exact FS'.
  - intros u w Iu. destruct (OP u w Iu) as (Nw & k & u' & Ru & (EU & SU & PU) & Nu'). destruct (PP u w (or_intror Iu)) as (RW & _). split.
    + destruct (NEW 0 w w RW) as (k' & Q). destruct (String.eqb_spec w y); [congruence|]. apply (rooted_root _ _ _ _ Q).
    + destruct (NEW k u u' Ru) as (k' & Q). exists k', (if String.eqb u' y then x' else u'). split; [exact Q|]. destruct (String.eqb_spec u' y) as [->|Nuy].
      * split; [apply ED; auto|]. split; [intros z Z; apply ED in Z as [[_ Z]|(Z & _)]; [apply SU, Z|congruence]|].
        intros z Z. apply ED in Z as [[Z _]|(Z1 & Z2 & Z)]; [exact Z|]. apply PU in Z. congruence.
      * split; [apply ED; auto|]. split; [intros z Z; apply ED in Z as [[Z _]|(_ & _ & Z)]; [congruence|apply SU, Z]|].
        intros z Z. apply ED in Z as [[Z Z']|(Z1 & Z2 & Z)]; [apply PU in Z'; congruence|]. apply PU, Z.
  - intros u z w H1 H2. eapply INJ; simpl; eauto.
  - assert (SUB : forall a b, clos_trans string (fun u w => exists x0 n0, In (x0, w) pairs /\ rooted d' n0 x0 u) a b ->
        clos_trans string (fun u w => exists x0 n0, In (x0, w) ((x, y) :: pairs) /\ rooted d n0 x0 u) a b).
    { induction 1 as [a b (u & k & Iu & Ru)|a b c _ IH1 _ IH2]; [|eapply t_trans; eauto].
      destruct (OP u b Iu) as (_ & k0 & u' & Ru0 & _ & _). destruct (NEW k0 u u' Ru0) as (k' & Q). destruct (rooted_fun _ _ _ _ Ru _ _ Q) as [_ ->].
      destruct (String.eqb_spec u' y) as [Eu|Nu]; [rewrite Eu in Ru0|].
      - apply t_trans with y; apply t_step; [exact STEP|]. exists u, k0. simpl; auto.
      - apply t_step. exists u, k0. simpl; auto. }
    intros a b H Eb. apply SUB in H. apply ED in Eb as [[-> Eb]|(_ & _ & Eb)]; [|apply (CH a b H Eb)].
    apply (CH a y); [|exact Eb]. eapply t_trans; [exact H|]. apply t_step, STEP.
Qed.

Lemma combine_inv g0 : forall pairs g d, pass_inv g0 pairs g d -> exists g' d', for_each combine_step pairs (g, d) = Ok (g', d') /\ pass_inv g0 [] g' d'.
Proof.
  induction pairs as [|[x y] pairs IH]; intros g d I; [exists g, d; auto|]. cbn [for_each]. destruct (combine_step_inv _ _ _ _ _ _ I) as (g1 & d1 & E & I1).
  rewrite E. cbn [bind]. apply IH, I1.
Qed.

Lemma combine_blocks_merges : forall split_ops fns g, consistent g -> tidy g -> start_first g -> no_closed_chain g ->
  exists g', combine_blocks_block_list split_ops fns g = Ok g' /\ consistent g' /\ tidy g' /\ equivalent g g' /\ start_first g' /\ merges g g'.
Proof.
  intros so fns g C T SF NC. unfold combine_blocks_block_list. destruct (nodes_to_merge_alone so fns g C) as (pairs & E & ND & P). rewrite E. cbn [bind].
  assert (RT : forall x, rooted [] 0 x x) by (intros; constructor; simpl; auto).
  assert (RU : forall n x r, rooted [] n x r -> r = x) by (intros n x r H; destruct (rooted_fun _ _ _ _ H _ _ (RT x)); auto).
  destruct (combine_inv g pairs g []) as (g' & d' & E' & I).
  - constructor; auto.
    + apply equivalent_refl.
    + apply merges_none.
    + intros x; eauto.
    + intros x y I. split; [apply RT|]. exists 0, x. split; [apply RT|]. apply P in I. apply I.
    + intros x y z H1 H2. apply P in H1 as [(E1 & _ & _) _]. apply P in H2 as [(_ & _ & P2) _]. apply P2, E1.
    + intros a b H. apply NC. clear - H P RU. induction H as [a b (x & n & I & R)|]; [|eapply t_trans; eauto]. apply RU in R. subst. apply t_step. apply P in I. apply I.
  - rewrite E'. cbn [bind fst]. exists g'. destruct I. auto 7.
Qed.
(** Combining all the blocks of a consistent graph succeeds, gives a consistent
    graph and changes no execution, provided that no block jumps to the start
    block and no chain of blocks to merge is a loop. *)
Theorem combine_blocks_preserves_partial : forall split_ops fns g, consistent g -> tidy g -> start_first g -> no_closed_chain g ->
  exists g', combine_blocks_block_list split_ops fns g = Ok g' /\ consistent g' /\ tidy g' /\ equivalent g g' /\ start_first g'.
Proof. intros so fns g C T SF NC. destruct (combine_blocks_merges so fns g C T SF NC) as (g' & E & A & B & Q & S & _). exists g'. auto 6. Qed.
