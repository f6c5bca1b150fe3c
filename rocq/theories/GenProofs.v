(** Proofs about the driver. *)
From Verif Require Import Base Lexical LexicalProofs SymExecModel UtilModel PermutModel.
From Verif Require GreedyTailModel GreedyTailProofs PlaceModel PlaceTree PlaceRepair RegModel RegProps.
From Verif Require Import SearchModel SearchSpec SearchProofs SearchProps StoreSpec SearchIds TargetModel TargetSpec TargetProofs TargetProps GenModel GenSpec.
Import PlaceModel (counter, cget, cinc, cplus, initial_get_count).
Open Scope string_scope. Open Scope list_scope. Open Scope nat_scope.

Lemma bind_ok' {A B} (r : result A) (f : A -> result B) y : bind r f = Ok y -> exists x, r = Ok x /\ f x = Ok y.
Proof. destruct r; cbn; [eauto|discriminate]. Qed.

(** ** The loops *)
Definition made (fuel : nat) (b : gblock) (r : gresult) : Prop := block_ids fuel b = Ok r.
Definition reported (fuel : nat) (bs : list gblock) (rep : greport) : Prop := blocklist_ids fuel bs = Ok rep.

Definition list_step (fuel : nat) (rep : greport) (b : gblock) : result greport :=
  do r <- block_ids fuel b;
  Ok {| ge_blocks := ge_blocks rep ++ [r]; ge_fix := cplus (ge_fix rep) (gr_count r); ge_repair := ge_repair rep || gr_vget r |}.
Lemma list_loop fuel : forall bs rep0 rep, for_each (list_step fuel) bs rep0 = Ok rep ->
  exists rs, Forall2 (made fuel) bs rs /\ ge_blocks rep = ge_blocks rep0 ++ rs
    /\ ge_repair rep = ge_repair rep0 || existsb gr_vget rs
    /\ ge_fix rep = fold_left (fun c r => cplus c (gr_count r)) rs (ge_fix rep0).
Proof.
  induction bs as [|b bs IH]; cbn [for_each]; intros rep0 rep E.
  - injection E as <-. exists []. rewrite app_nil_r, orb_false_r. auto.
  - apply bind_ok' in E as (rep1 & E1 & E). unfold list_step in E1. apply bind_ok' in E1 as (r & R & E1). injection E1 as <-.
    apply IH in E as (rs & F & B & Rp & Fx). cbn [ge_blocks ge_repair ge_fix] in *. exists (r :: rs). split; [constructor; assumption|].
    rewrite B, Rp, Fx, <- app_assoc. cbn [existsb fold_left app]. rewrite orb_assoc. auto.
Qed.
Lemma reported_blocks fuel bs rep : reported fuel bs rep -> Forall2 (made fuel) bs (ge_blocks rep)
  /\ ge_repair rep = existsb gr_vget (ge_blocks rep)
  /\ ge_fix rep = fold_left (fun c r => cplus c (gr_count r)) (ge_blocks rep) [].
Proof.
  intros E. destruct (list_loop fuel bs {| ge_blocks := []; ge_repair := false; ge_fix := [] |} rep E) as (rs & F & B & R & X).
  cbn [ge_blocks ge_repair ge_fix app orb] in *. subst rs. auto.
Qed.
Lemma functions_loop fuel : forall fs acc out, for_each (fun (acc : bool * list greport) (f : string * list gblock) =>
    do r <- blocklist_ids fuel (snd f); Ok (fst acc || ge_repair r, snd acc ++ [r])) fs acc = Ok out ->
  exists rs, Forall2 (reported fuel) (map snd fs) rs /\ snd out = snd acc ++ rs /\ fst out = fst acc || existsb ge_repair rs.
Proof.
  induction fs as [|f fs IH]; cbn [for_each]; intros acc out E.
  - injection E as <-. exists []. rewrite app_nil_r, orb_false_r. split; [constructor|auto].
  - apply bind_ok' in E as (acc1 & E1 & E). apply bind_ok' in E1 as (r & R & E1). injection E1 as <-.
    apply IH in E as (rs & F & B & Rp). cbn [fst snd] in *. exists (r :: rs). split; [constructor; assumption|].
    rewrite B, Rp, <- app_assoc. cbn [existsb app]. rewrite orb_assoc. auto.
Qed.
Lemma object_reports fuel o out : object_ids fuel o = Ok out ->
  Forall2 (reported fuel) (gb_main o :: map snd (gb_functions o)) (snd out) /\ fst out = existsb ge_repair (snd out).
Proof.
  unfold object_ids. intros E. apply bind_ok' in E as (m & M & E). apply functions_loop in E as (rs & F & B & R). cbn [fst snd] in *.
  rewrite B, R. cbn [app existsb]. split; [constructor; assumption|reflexivity].
Qed.
(** The loop over the objects. *)
Definition objects_ids (sub_ids : gcfg -> result (bool * list greport)) (fuel : nat) :=
  fix go (os : list (string * gobject * option gcfg)) (acc : bool * list greport) : result (bool * list greport) :=
    match os with
    | [] => Ok acc
    | (_, o, sub) :: os' =>
        do r <- object_ids fuel o;
        let acc1 := (fst acc || fst r, snd acc ++ snd r) in
        match sub with
        | None => go os' acc1
        | Some c' => do r' <- sub_ids c'; go os' (fst acc1 || fst r', snd acc1 ++ snd r')
        end
    end.
Lemma cfg_ids_eq fuel objects : cfg_ids fuel (GCfg objects) = objects_ids (cfg_ids fuel) fuel objects (false, []).
Proof. reflexivity. Qed.
Fixpoint gcfg_rect' (P : gcfg -> Prop) (H : forall os, (forall n o c, In (n, o, Some c) os -> P c) -> P (GCfg os)) (c : gcfg) : P c.
Proof.
  destruct c as [os]. apply H. induction os as [|[[n o] sub] os IH]; intros n' o' c' Q; [destruct Q|].
  destruct Q as [Q|Q]; [|eapply IH; exact Q]. destruct sub as [c|]; [|discriminate]. injection Q as _ _ <-. apply (gcfg_rect' P H).
Defined.
Definition own_lists (o : string * gobject * option gcfg) : list (list gblock) :=
  let '(_, ob, sub) := o in gb_main ob :: map snd (gb_functions ob) ++ match sub with Some c' => block_lists c' | None => [] end.
Lemma block_lists_eq os : block_lists (GCfg os) = flat_map own_lists os.
Proof. reflexivity. Qed.
Lemma cfg_reports fuel c : forall out, cfg_ids fuel c = Ok out ->
  Forall2 (reported fuel) (block_lists c) (snd out) /\ fst out = existsb ge_repair (snd out).
Proof.
  induction c as [os IHs] using gcfg_rect'. intros out. rewrite cfg_ids_eq, block_lists_eq.
  assert (G : forall os' acc, (forall n o c, In (n, o, Some c) os' -> forall out, cfg_ids fuel c = Ok out ->
      Forall2 (reported fuel) (block_lists c) (snd out) /\ fst out = existsb ge_repair (snd out)) ->
    objects_ids (cfg_ids fuel) fuel os' acc = Ok out ->
    exists rs, Forall2 (reported fuel) (flat_map own_lists os') rs /\ snd out = snd acc ++ rs /\ fst out = fst acc || existsb ge_repair rs).
  { clear. induction os' as [|[[n o] sub] os' IH]; intros acc HS E; cbn [objects_ids] in E.
    - injection E as <-. exists []. rewrite app_nil_r, orb_false_r. split; [constructor|auto].
    - apply bind_ok' in E as (r & R & E). apply object_reports in R as [R1 R2]. cbn [flat_map]. unfold own_lists at 1.
      assert (HS' : forall n o c, In (n, o, Some c) os' -> forall out, cfg_ids fuel c = Ok out ->
        Forall2 (reported fuel) (block_lists c) (snd out) /\ fst out = existsb ge_repair (snd out)) by (intros; eapply HS; [right; eassumption|assumption]).
      destruct sub as [c'|].
      + apply bind_ok' in E as (r' & R' & E). apply (HS n o c' (or_introl eq_refl)) in R' as [R1' R2'].
        apply (IH _ HS') in E as (rs & F & B & Rp). cbn [fst snd] in *. exists (snd r ++ snd r' ++ rs). rewrite B, Rp, R2, R2'.
        rewrite !existsb_app, !orb_assoc, <- !app_assoc. split; [|auto].
        rewrite app_comm_cons, <- app_assoc. apply Forall2_app; [exact R1|]. apply Forall2_app; assumption.
      + apply (IH _ HS') in E as (rs & F & B & Rp). cbn [fst snd] in *. exists (snd r ++ rs). rewrite B, Rp, R2.
        rewrite !existsb_app, !orb_assoc, <- !app_assoc, ?app_nil_r. split; [|auto].
        apply Forall2_app; assumption. }
  intros E. destruct (G os (false, []) IHs E) as (rs & F & B & R). cbn [fst snd app orb] in *. subst rs. auto.
Qed.

(** ** One block *)
Lemma made_eq fuel b r : made fuel b r -> gr_name r = gb_name b
  /\ greedy_standalone fuel 16 (gb_junk b) (gb_spec b) = Ok (Some (gr_ids r))
  /\ check_execution_from_ids (t_sfs (gb_spec b)) (gr_ids r) (gb_junk b) = Ok true
  /\ gr_count r = fst (initial_get_count (gr_ids r)) /\ gr_vget r = has_vget (gr_ids r).
Proof.
  unfold made, block_ids. intros E. apply bind_ok' in E as (o & O & E). apply bind_ok' in E as (ids & I & E).
  destruct o as [l|]; [|discriminate]. cbn in I. injection I as <-.
  apply bind_ok' in E as (ok & K & E). apply bind_ok' in E as (u & A & E). destruct ok; [|discriminate]. injection E as <-. cbn. auto.
Qed.
Lemma standalone_cases fuel reach junk sp ids : greedy_standalone fuel reach junk sp = Ok (Some ids) ->
  ids = [] \/ exists ops, greedy_from_json fuel reach 2 junk sp = Ok (Some ops) /\ ids = map snd ops.
Proof.
  unfold greedy_standalone. destruct (greedy_from_json fuel reach 2 junk sp) as [[ops|]|[]] eqn:E; cbn; intros H; try discriminate; injection H as <-; eauto.
Qed.
Lemma greedy_depth fuel reach pd garbage sp ids : greedy_from_json fuel reach pd garbage sp = Ok (Some ids) ->
  GreedyTailModel.check_dup_swap (Z.of_nat reach) (map snd ids) = Ok tt.
Proof.
  unfold greedy_from_json. intros E. apply bind_ok' in E as (e & I & E).
  destruct (synthesize_body fuel reach pd garbage sp e) as [l|[]] eqn:B; try discriminate. injection E as ->.
  assert (R : forall q, GreedyTailModel.check_dup_swap (Z.of_nat reach) (map snd q) = Ok tt ->
              GreedyTailModel.check_dup_swap (Z.of_nat reach) (map snd (GreedyTailModel.remove_useless q)) = Ok tt).
  { intros q Hq. eapply GreedyTailProofs.check_dup_swap_incl; [|exact Hq]. intros x Hx.
    apply in_map_iff in Hx as (z & <- & Hz). apply in_map. apply GreedyTailProofs.remove_useless_incl; auto. }
  unfold synthesize_body in B. apply bind_ok' in B as ([ops tbl] & PS & B). apply bind_ok' in B as (u1 & _ & B). apply bind_ok' in B as ([] & C & B). cbn [fst snd] in *.
  destruct garbage; [|injection B as <-; auto]. apply bind_ok' in B as ([s acc] & SA & B). cbn [fst snd] in B.
  destruct (_ && _ && _); injection B as <-; [|auto].
  unfold second_attempt in SA. apply bind_ok' in SA as (e2 & I2 & SA). apply bind_ok' in SA as ([ops2 tbl2] & PS2 & SA). apply bind_ok' in SA as ([] & C2 & SA).
  injection SA as <- _. cbn [fst snd] in *. auto.
Qed.
Lemma made_depth fuel b r : made fuel b r -> GreedyTailModel.check_dup_swap 16 (gr_ids r) = Ok tt.
Proof.
  intros M. apply made_eq in M as (_ & S & _). apply standalone_cases in S as [-> | (ops & E & ->)]; [reflexivity|]. exact (greedy_depth _ _ _ _ _ _ E).
Qed.
Lemma made_shape fuel b r : made fuel b r -> well_given (gb_spec b) -> shaped (map i_id (ops_of (gb_spec b))) (gr_ids r).
Proof.
  intros M G. apply made_eq in M as (_ & S & _). apply standalone_cases in S as [-> | (ops & E & ->)].
  - split; [intros ? []|]. intros x [|? ?] post _ Q; discriminate.
  - destruct (greedy_attempt _ G _ _ _ _ _ E) as (junk & A & _). exact (at_shape _ _ _ _ _ A).
Qed.

(** ** Loads and saves *)
Definition Iof (b : gblock) := map i_id (ops_of (gb_spec b)).
Lemma usual_vget I id : usual I id -> startswith "VGET" id = true -> In id I \/ loads id.
Proof. intros [H|[-> |[(z & ->)|[(n & ->)|(x & ->)]]]] S; [auto|discriminate..|right; eexists; reflexivity]. Qed.
Lemma usual_vset' I id : usual I id -> startswith "VSET" id = true -> In id I.
Proof. intros [H|[-> |[(z & ->)|[(n & ->)|(x & ->)]]]] S; [auto|discriminate..]. Qed.
Lemma prefix_app p q : forall s, prefix (p ++ q)%string s = true -> prefix p s = true.
Proof.
  induction p as [|c p IH]; intros s H; [destruct s; reflexivity|]. destruct s as [|d s]; [discriminate|]. cbn in *.
  destruct (Ascii.ascii_dec c d); [apply IH; exact H|discriminate].
Qed.
Lemma vset_arg_starts id x : vset_arg id = Some x -> startswith "VSET" id = true.
Proof. intros H. apply paren_arg_prefix in H. exact (prefix_app "VSET" "(" id H). Qed.
Lemma vget_arg_starts id x : vget_arg id = Some x -> startswith "VGET" id = true.
Proof. intros H. apply paren_arg_prefix in H. exact (prefix_app "VGET" "(" id H). Qed.
Section Block.
Context (fuel : nat) (b : gblock) (r : gresult) (M : made fuel b r) (G : well_given (gb_spec b)) (N : no_register_names (gb_spec b)).
Lemma ops_no_get id : In id (Iof b) -> startswith "VGET" id = false.
Proof. intros H. apply in_map_iff in H as (i & <- & Hi). apply (N i Hi). Qed.
Lemma ops_no_set id : In id (Iof b) -> startswith "VSET" id = false.
Proof. intros H. apply in_map_iff in H as (i & <- & Hi). apply (N i Hi). Qed.
Lemma made_id id : In id (gr_ids r) -> (startswith "VGET" id = true -> loads id) /\ (startswith "VSET" id = true -> saves id).
Proof.
  intros H. destruct (made_shape _ _ _ M G) as [A _]. destruct (A _ H) as [U|(x & ->)].
  - split; intros S; [apply (usual_vget _ _ U) in S as Q|apply (usual_vset' _ _ U) in S as Q].
    + destruct Q as [Q|Q]; [apply ops_no_get in Q; congruence|exact Q].
    + apply ops_no_set in Q. congruence.
  - split; intros S; [discriminate|]. exists x. reflexivity.
Qed.
Lemma made_vget : has_vget (gr_ids r) = true <-> exists id, In id (gr_ids r) /\ loads id.
Proof.
  unfold has_vget. rewrite existsb_exists. split; intros (id & H & S); exists id; split; auto.
  - apply made_id in H. tauto.
  - destruct S as (x & ->). reflexivity.
Qed.
Lemma made_fetched pre x post : gr_ids r = pre ++ vset_id x :: post -> In (vget_id x) post.
Proof.
  destruct (made_shape _ _ _ M G) as [_ B]. apply B. intros H. apply ops_no_set in H. discriminate.
Qed.
Lemma made_none : has_vget (gr_ids r) = false -> forall id, In id (gr_ids r) -> startswith "VGET" id = false /\ startswith "VSET" id = false.
Proof.
  intros V id H. assert (NG : forall id, In id (gr_ids r) -> startswith "VGET" id = false).
  { intros id' H'. destruct (startswith "VGET" id') eqn:S; [|reflexivity]. exfalso. unfold has_vget in V.
    assert (Q : existsb (startswith "VGET") (gr_ids r) = true) by (apply existsb_exists; eauto). congruence. }
  split; [auto|]. destruct (startswith "VSET" id) eqn:S; [|reflexivity]. exfalso. apply made_id in H as Q. destruct Q as [_ Q]. destruct (Q S) as (x & ->).
  apply in_split in H as (pre & post & E). pose proof (made_fetched _ _ _ E) as F.
  assert (H' : In (vget_id x) (gr_ids r)) by (rewrite E; apply in_app_iff; right; right; exact F). apply NG in H'. discriminate.
Qed.
End Block.

(** ** The loads to fix *)
Lemma vget_inj x y : vget_id x = vget_id y -> x = y.
Proof.
  unfold vget_id. cbn. intros H. injection H as H. revert y H. induction x as [|c x IH]; intros [|d y] H; cbn in H; auto.
  - injection H as <- H. destruct y; discriminate.
  - injection H as -> H. destruct x; discriminate.
  - injection H as -> H. f_equal. auto.
Qed.
Lemma count_loads ids : (forall id, In id ids -> (startswith "VGET" id = true -> loads id) /\ (startswith "VSET" id = true -> saves id)) ->
  forall c n acc x, cget (fst (fst (fold_left PlaceRepair.count_step ids (c, n, acc)))) x
    = cget c x + (if mem x acc then 0 else loads_before_save x ids).
Proof.
  induction ids as [|id ids IH]; intros H c n acc x; cbn [fold_left loads_before_save].
  - cbn [fst]. destruct (mem x acc); lia.
  - assert (H' : forall i, In i ids -> (startswith "VGET" i = true -> loads i) /\ (startswith "VSET" i = true -> saves i)) by (intros; apply H; right; assumption).
    destruct (H id (or_introl eq_refl)) as [Hg Hs]. unfold PlaceRepair.count_step at 2. destruct (startswith "VGET" id) eqn:Sg.
    + destruct (Hg eq_refl) as (y & ->). rewrite RegProps.extract_vget.
      assert (E1 : String.eqb (vget_id y) (vset_id x) = false) by reflexivity. rewrite E1.
      assert (E2 : String.eqb (vget_id y) (vget_id x) = String.eqb y x).
      { destruct (String.eqb_spec y x) as [-> |]; [apply String.eqb_refl|]. apply String.eqb_neq. intros Q. apply vget_inj in Q. contradiction. }
      rewrite E2. destruct (mem y acc) eqn:My; rewrite (IH H').
      * destruct (String.eqb_spec y x) as [-> |]; [rewrite My; reflexivity|]. reflexivity.
      * rewrite PlaceTree.cget_inc. destruct (String.eqb_spec y x) as [-> |]; [rewrite My; lia|]. destruct (mem x acc); lia.
    + assert (E2 : String.eqb id (vget_id x) = false) by (apply String.eqb_neq; intros ->; discriminate). rewrite E2. cbn [Nat.add].
      destruct (startswith "VSET" id) eqn:Ss.
      * destruct (Hs eq_refl) as (y & ->). rewrite RegProps.extract_vset, (IH H').
        destruct (String.eqb_spec y x) as [-> |Ne].
        -- rewrite String.eqb_refl. unfold mem at 1. cbn [existsb]. rewrite String.eqb_refl. cbn [orb]. destruct (mem x acc); lia.
        -- assert (E3 : String.eqb (vset_id y) (vset_id x) = false) by (apply String.eqb_neq; intros Q; apply vset_inj in Q; contradiction). rewrite E3.
           assert (E4 : String.eqb x y = false) by (apply String.eqb_neq; congruence). unfold mem at 1. cbn [existsb]. rewrite E4. reflexivity.
      * assert (E3 : String.eqb id (vset_id x) = false) by (apply String.eqb_neq; intros ->; discriminate). rewrite E3. apply IH. exact H'.
Qed.
Lemma initial_counts ids x : (forall id, In id ids -> (startswith "VGET" id = true -> loads id) /\ (startswith "VSET" id = true -> saves id)) ->
  cget (fst (initial_get_count ids)) x = loads_before_save x ids.
Proof.
  intros H. rewrite PlaceRepair.initial_get_count_eq. pose proof (count_loads ids H [] 0 [] x) as Q.
  assert (G : forall X : counter * nat * list string, fst (let '(c, n, _) := X in (c, n)) = fst (fst X)) by (intros [[c n] acc]; reflexivity).
  rewrite G. exact Q.
Qed.
Lemma total_counts x : forall rs c, PlaceTree.cwf c -> (forall r, In r rs -> gr_count r = fst (initial_get_count (gr_ids r))
    /\ forall id, In id (gr_ids r) -> (startswith "VGET" id = true -> loads id) /\ (startswith "VSET" id = true -> saves id)) ->
  cget (fold_left (fun c r => cplus c (gr_count r)) rs c) x = cget c x + list_sum (map (fun r => loads_before_save x (gr_ids r)) rs).
Proof.
  induction rs as [|r rs IH]; cbn [fold_left map list_sum]; intros c W H; [cbn; lia|]. destruct (H r (or_introl eq_refl)) as [E Q].
  destruct (PlaceTree.cplus_spec (gr_count r) c) as [W' C]; [rewrite E; apply PlaceRepair.initial_cwf|exact W|].
  rewrite IH; [|exact W'|intros; apply H; right; assumption]. rewrite C, E, (initial_counts _ _ Q). unfold list_sum. cbn [fold_right]. lia.
Qed.
