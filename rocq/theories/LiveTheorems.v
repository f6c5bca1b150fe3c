(** C10-C12: soundness, minimality and termination of the liveness analysis. *)
From Coq Require Import Relations Wf_nat.
From Verif Require Import Base UtilModel UtilProps LevelProps GraphProps WebProps UnifyProps LiveModel LiveSpec LiveProps LiveLoop.
Open Scope string_scope. Open Scope list_scope.

Lemma initial_lookup (T : list string) b :
  lookup b (fold_left (fun d t => dict_set t {| l_in := None; l_out := [] |} d) T []) = if in_dec string_dec b T then Some {| l_in := None; l_out := [] |} else None.
Proof.
  assert (G : forall (T : list string) d, lookup b (fold_left (fun d t => dict_set t {| l_in := None; l_out := [] |} d) T d)
     = if in_dec string_dec b T then Some {| l_in := None; l_out := [] |} else lookup b d).
  { clear T. induction T as [|q T IH]; intros d; [reflexivity|]. cbn [fold_left]. rewrite IH, lookup_dict_set.
    destruct (in_dec string_dec b T) as [I|NI]; destruct (in_dec string_dec b (q :: T)) as [J|NJ]; try reflexivity.
    - exfalso. apply NJ. now right.
    - destruct J as [->|J]; [|contradiction]. now rewrite String.eqb_refl.
    - destruct (String.eqb_spec q b) as [->|]; [|reflexivity]. exfalso. apply NJ. now left. }
  apply G.
Qed.
Lemma initial_inv g vs T : (forall b, lookup b vs <> None <-> lookup b g <> None) -> (forall t, In t T -> lookup t g <> None) ->
  inv g vs T (fold_left (fun d t => dict_set t {| l_in := None; l_out := [] |} d) T []) (rev T).
Proof.
  intros K H. constructor; intros b; rewrite ?initial_lookup; destruct (in_dec string_dec b T) as [I|N]; try congruence.
  - intros st E. left. now apply in_rev in I.
  - intros st E. now left.
  - intros I. apply in_rev in I. contradiction.
  - intros _. apply K. auto.
  - intros st x E. injection E as <-. intros [].
Qed.
Lemma analysis_inv fuel g T info : ssa_graph g -> (forall t, In t T -> lookup t g <> None) -> liveness_analysis fuel g T = Ok info ->
  exists vs, (forall b, lookup b vs <> None <-> lookup b g <> None)
  /\ (forall b bb, lookup b g = Some bb -> exists i, lookup b vs = Some i /\ info_ok g b bb i) /\ inv g vs T info [].
Proof.
  intros W Ht E. destruct (construct_ok g W) as (vs & C & K & H). exists vs. split; [exact K|split; [exact H|]].
  unfold liveness_analysis in E. rewrite C in E. cbn [bind] in E. destruct (map_result _ T); [|discriminate]. cbn [bind] in E.
  eapply loop_inv; eauto. now apply initial_inv.
Qed.

(** C10.  Whatever is read later along a path, before being written, is in the
    set reported for the end of the block, provided that
    - terminal blocks have no successors,
    - a block with a successor that has phi functions has no other successor,
    - the last block of the path can reach a terminal block.
    The last two restrictions are necessary (see the refutations). *)
Theorem liveness_sound_partial : forall fuel g T info, ssa_graph g -> (forall t, In t T -> lookup t g <> None) ->
  (forall t tb, In t T -> lookup t g = Some tb -> lb_succs tb = []) ->
  (forall b s s', flow g b s -> flow g b s' -> has_phis g s -> s' = s) ->
  liveness_analysis fuel g T = Ok info ->
  forall v b path t, is_const v = false -> lookup b g <> None -> is_path g b path -> clos_refl_trans string (flow g) (last path b) t -> In t T ->
    exists st, lookup b info = Some st
      /\ (needed v (path_events g b path) -> In v (l_out st))
      /\ exists live_in, l_in st = Some live_in
         /\ forall bb, lookup b g = Some bb -> (In v (phi_results bb) \/ needed v (body_events bb ++ path_events g b path)) -> In v live_in.
Proof.
  intros fuel g T info W Ht Hs Hc E v b path t Cv Gb P C It. destruct (analysis_inv fuel g T info W Ht E) as (vs & K & H & I).
  pose proof (final_covers g vs T W H info I _ _ C It) as Ll.
  assert (C' : clos_refl_trans string (flow g) b t).
  { eapply rt_trans; [|exact C]. clear - P. revert b P. induction path as [|s path IH]; intros b P; [apply rt_refl|].
    destruct P as (F & P). rewrite last_cons. eapply rt_trans; [apply rt_step; exact F|apply IH; exact P]. }
  pose proof (final_covers g vs T W H info I _ _ C' It) as Lb. destruct (lookup b info) as [st|] eqn:Es; [|contradiction].
  exists st. split; [reflexivity|].
  assert (Out : needed v (path_events g b path) -> In v (l_out st)).
  { intros N. destruct (final_sound g vs T W H info I Hs Hc v Cv path b P Ll Gb N) as (st' & Es' & Iv). rewrite Es in Es'. injection Es' as <-. exact Iv. }
  split; [exact Out|]. destruct (in_settled _ _ _ _ _ I b st Es) as [[]|(i & Vb & Ein & _)]. exists (in_of i (l_out st)). split; [exact Ein|].
  intros bb Lbb Q. destruct (H b bb Lbb) as (i' & Vb' & O). rewrite Vb in Vb'. injection Vb' as <-. unfold in_of. rewrite !union_In, diff_In.
  destruct (in_dec string_dec v (phi_results bb)) as [D|D]; [right; left; now apply (io_phi_defs _ _ _ _ O)|]. destruct Q as [Q|Q]; [contradiction|].
  apply needed_app in Q as [Q|(Nw & Q)].
  - left. apply (io_upward _ _ _ _ O). auto.
  - right. right. split; [now apply Out|]. now rewrite (io_defs _ _ _ _ O).
Qed.
Print Assumptions liveness_sound_partial.

(** C11.  Everything reported at the end of a block is read later along some
    path, and everything reported at its start is either read along some path
    or the result of one of its phi functions. *)
Theorem liveness_minimal_partial : forall fuel g T info, ssa_graph g -> (forall t, In t T -> lookup t g <> None) ->
  liveness_analysis fuel g T = Ok info ->
  forall b st, lookup b info = Some st ->
    (forall v, In v (l_out st) -> live_out_at g b v)
    /\ forall live_in v, l_in st = Some live_in -> In v live_in ->
         live_in_at g b v \/ exists bb, lookup b g = Some bb /\ In v (phi_results bb).
Proof.
  intros fuel g T info W Ht E b st Es. destruct (analysis_inv fuel g T info W Ht E) as (vs & K & H & I). split.
  - intros v Iv. apply (in_min _ _ _ _ _ I b st v Es Iv).
  - intros li v El Iv. destruct (in_settled _ _ _ _ _ I b st Es) as [[]|(i & Vb & Ein & _)]. rewrite Ein in El. injection El as <-.
    destruct (in_of_min g vs K H b i (l_out st) v Vb (fun y Hy => in_min _ _ _ _ _ I b st y Es Hy) Iv) as [D|(_ & L)]; [|now left].
    right. destruct (vs_info g vs K H b i Vb) as (bb & Lb & O). exists bb. split; [exact Lb|]. now apply (io_phi_defs _ _ _ _ O).
Qed.
Print Assumptions liveness_minimal_partial.

(* --- termination --- *)
Lemma filter_length_le {A} (f : A -> bool) l : length (filter f l) <= length l.
Proof. induction l as [|x l IH]; simpl; [lia|]. destruct (f x); simpl; lia. Qed.
Section Termination.
  Variables (g : blocks) (vs : list (string * binfo)) (T : list string).
  Hypotheses (W : ssa_graph g)
    (Kvs : forall b, lookup b vs <> None <-> lookup b g <> None)
    (Hvs : forall b bb, lookup b g = Some bb -> exists i, lookup b vs = Some i /\ info_ok g b bb i).
  Variable rank : string -> nat.
  Hypothesis Hrank : forall p s ip is_, lookup p vs = Some ip -> lookup s vs = Some is_ -> In p (i_preds is_) -> i_pred_phi_defs ip <> [] -> rank p < rank s.

  Definition universe : list string := flat_map (fun bi => s_upward (i_sets (snd bi)) ++ s_phi_defs (i_sets (snd bi)) ++ i_phi_uses (snd bi)) vs.
  Definition missing (info : infos) (b : string) : nat :=
    match lookup b info with
    | None => S (length universe)
    | Some st => length (filter (fun x => negb (mem x (l_out st))) universe)
    end.
  Definition deficit (info : infos) : nat := list_sum (map (missing info) (map fst vs)).
  Definition bound : nat := S (list_max (map (fun bi => length (i_preds (snd bi))) vs)).
  Definition weight (b : string) : nat := bound ^ rank b.
  Definition weights (l : list string) : nat := list_sum (map weight l).

  Lemma missing_bound info b st : lookup b info = Some st -> missing info b <= length universe.
  Proof. intros L. unfold missing. rewrite L. apply filter_length_le. Qed.
  Definition grows (info info' : infos) : Prop := forall b st, lookup b info = Some st -> exists st', lookup b info' = Some st' /\ incl (l_out st) (l_out st').
  Lemma missing_le info info' b : grows info info' -> missing info' b <= missing info b.
  Proof.
    intros G. unfold missing. destruct (lookup b info) as [st|] eqn:L.
    - destruct (G b st L) as (st' & -> & I). apply filter_le. intros x _. rewrite !negb_true_iff, !mem_false. auto.
    - destruct (lookup b info') as [st'|]; [|lia]. pose proof (filter_length_le (fun x => negb (mem x (l_out st'))) universe). lia.
  Qed.
  Lemma deficit_le info info' : grows info info' -> deficit info' <= deficit info.
  Proof. intros G. apply list_sum_le. intros b _. now apply missing_le. Qed.
  Lemma sum_lt {A} (f h : A -> nat) l a : (forall x, In x l -> f x <= h x) -> In a l -> f a < h a -> list_sum (map f l) < list_sum (map h l).
  Proof.
    induction l as [|x l IH]; intros H I L; [destruct I|]. simpl. pose proof (H x (or_introl eq_refl)). destruct I as [->|I].
    - assert (list_sum (map f l) <= list_sum (map h l)) by (apply list_sum_le; intros; apply H; now right). unfold list_sum in *. lia.
    - assert (list_sum (map f l) < list_sum (map h l)) by (apply IH; auto; intros; apply H; now right). unfold list_sum in *. lia.
  Qed.
  Lemma deficit_lt info info' b : grows info info' -> In b (map fst vs) -> missing info' b < missing info b -> deficit info' < deficit info.
  Proof. intros G I L. eapply sum_lt; eauto. intros x _. now apply missing_le. Qed.
  Lemma in_keys b i : lookup b vs = Some i -> In b (map fst vs).
  Proof. intros L. apply lookup_In in L. apply in_map_iff. exists (b, i). auto. Qed.

  (** Visiting one predecessor: either the total deficit decreases, or only a
      predecessor of smaller rank is added to the work list. *)
  Lemma jump_measure input p info pend ip info' pend' : lookup p vs = Some ip -> incl input universe -> process_jump vs input (info, pend) p = Ok (info', pend') ->
    grows info info' /\ (deficit info' < deficit info \/ (weights pend' <= weights pend) \/ (i_pred_phi_defs ip <> [] /\ weights pend' <= weight p + weights pend)).
  Proof.
    intros Lp Iu E. assert (G : grows info info').
    { destruct (process_jump_ok vs input p info pend ip Lp) as (i1 & p1 & E1 & A). rewrite E in E1. injection E1 as <- <-.
      intros b st L. destruct (pa_old _ _ _ _ _ _ _ A b st L) as (s' & L' & _ & I' & _). eauto. }
    split; [exact G|]. unfold process_jump in E. rewrite Lp in E. cbn [of_option bind] in E. destruct (lookup p info) as [st|] eqn:Ls.
    - destruct (subset input (l_out st)) eqn:S; [injection E as <- <-; right; left; lia|].
      destruct (i_pred_phi_defs ip) as [|d ds] eqn:D.
      + left. injection E as <- <-. apply deficit_lt with p; [exact G|eapply in_keys; eauto|]. unfold missing at 1. rewrite lookup_dict_set, String.eqb_refl.
        unfold missing. rewrite Ls. cbn [propagate_state l_out].
        assert (exists x, In x input /\ ~ In x (l_out st)) as (x & Ix & Nx).
        { clear - S. unfold subset in S. induction input as [|y input IH]; [discriminate|]. simpl in S. apply andb_false_iff in S as [S|S].
          - exists y. split; [now left|]. now apply mem_false.
          - destruct (IH S) as (x & I & N). exists x. split; [now right|exact N]. }
        apply filter_lt with x; [|now apply Iu| |].
        * intros y _. rewrite !negb_true_iff, !mem_false, union_In. tauto.
        * rewrite negb_false_iff, mem_In, !union_In, diff_In, D. simpl. tauto.
        * now rewrite negb_true_iff, mem_false.
      + injection E as <- <-. right. right. split; [congruence|]. unfold weights. simpl. lia.
    - left. injection E as <- <-. apply deficit_lt with p; [exact G|eapply in_keys; eauto|].
      assert (missing info p = S (length universe)) as -> by (unfold missing; now rewrite Ls).
      match goal with |- missing ?d p < _ => pose proof (missing_bound d p) as B end. rewrite lookup_dict_set, String.eqb_refl in B. specialize (B _ eq_refl). lia.
  Qed.
  Lemma grows_trans a b c : grows a b -> grows b c -> grows a c.
  Proof. intros H1 H2 x st L. destruct (H1 x st L) as (s1 & L1 & I1). destruct (H2 x s1 L1) as (s2 & L2 & I2). exists s2. split; [exact L2|eapply incl_tran; eauto]. Qed.
  Lemma jumps_measure b i input : lookup b vs = Some i -> incl input universe -> forall ps info pend info' pend', incl ps (i_preds i) ->
    for_each (process_jump vs input) ps (info, pend) = Ok (info', pend') ->
    grows info info' /\ (deficit info' < deficit info \/ weights pend' * bound <= weights pend * bound + length ps * weight b).
  Proof.
    intros Lb Iu. induction ps as [|p ps IH]; intros info pend info' pend' Ip E.
    - injection E as <- <-. split; [intros x st L; exists st; auto using incl_refl|]. right. simpl. lia.
    - cbn [for_each] in E. destruct (process_jump vs input (info, pend) p) as [[i1 p1]|] eqn:E1; [|discriminate]. cbn [bind] in E.
      destruct (pred_info g vs W Kvs Hvs b i p Lb (Ip p (or_introl eq_refl))) as (ip & bp & Lp & _).
      destruct (jump_measure input p info pend ip i1 p1 Lp Iu E1) as (G1 & D1). destruct (IH i1 p1 info' pend' (fun x I => Ip x (or_intror I)) E) as (G2 & D2).
      split; [eapply grows_trans; eauto|]. pose proof (deficit_le _ _ G1). pose proof (deficit_le _ _ G2).
      destruct D1 as [D1|D1]; [left; lia|]. destruct D2 as [D2|D2]; [left; lia|]. right.
      destruct D1 as [D1|(Nd & D1)].
      + cbn [length]. assert (weights p1 * bound <= weights pend * bound) by (apply Nat.mul_le_mono_r; exact D1). nia.
      + assert (weight p * bound <= weight b) as Hw.
        { unfold weight. pose proof (Hrank p b ip i Lp Lb (Ip p (or_introl eq_refl)) Nd) as R.
          rewrite Nat.mul_comm, <- Nat.pow_succ_r'. apply Nat.pow_le_mono_r; [unfold bound; lia|exact R]. }
        assert (weights p1 * bound <= (weight p + weights pend) * bound) by (apply Nat.mul_le_mono_r; exact D1). cbn [length]. nia.
  Qed.
  Lemma in_of_universe b i out : lookup b vs = Some i -> incl out universe -> incl (in_of i out) universe.
  Proof.
    intros L Iu x I. unfold in_of in I. rewrite !union_In, diff_In in I. assert (Q : forall l, In x l -> (forall y, In y l -> In y (s_upward (i_sets i) ++ s_phi_defs (i_sets i) ++ i_phi_uses i)) -> In x universe).
    { intros l Il H. unfold universe. apply in_flat_map. exists (b, i). split; [now apply lookup_In|]. apply H. exact Il. }
    destruct I as [I|[I|(I & _)]]; [eapply Q; [exact I|]|eapply Q; [exact I|]|now apply Iu]; intros y Iy; rewrite !in_app_iff; tauto.
  Qed.
  Lemma phi_uses_universe b i : lookup b vs = Some i -> incl (i_phi_uses i) universe.
  Proof. intros L x I. unfold universe. apply in_flat_map. exists (b, i). split; [now apply lookup_In|]. cbn [snd]. rewrite !in_app_iff. tauto. Qed.

  Lemma loop_total : forall d w info pend, deficit info <= d -> weights pend <= w -> inv g vs T info pend -> (forall b st, lookup b info = Some st -> incl (l_out st) universe) ->
    exists n, forall fuel, n <= fuel -> exists r, analyze_loop fuel vs info pend = Ok r.
  Proof.
    induction d as [d IHd] using lt_wf_ind. induction w as [w IHw] using lt_wf_ind. intros info pend Hd Hw I U.
    destruct pend as [|b pend]; [exists 0; intros fuel _; exists info; destruct fuel; reflexivity|].
    destruct (loop_step g vs T W Kvs Hvs info b pend I) as (st & i & info' & pend' & L1 & L2 & F & A & I').
    assert (Iu : incl (in_of i (l_out st)) universe) by (eapply in_of_universe; eauto).
    destruct (jumps_measure b i _ L2 Iu _ _ _ _ _ (incl_refl _) F) as (G & M).
    assert (G0 : grows info (dict_set b (propagate_information i st) info)).
    { intros c sc Lc. rewrite lookup_dict_set. destruct (String.eqb_spec b c) as [<-|N]; [|exists sc; auto using incl_refl].
      rewrite L1 in Lc. injection Lc as <-. eexists. split; [reflexivity|]. apply incl_refl. }
    pose proof (deficit_le _ _ G0) as D0. pose proof (deficit_le _ _ G) as D1.
    assert (U' : forall c sc, lookup c info' = Some sc -> incl (l_out sc) universe).
    { intros c sc Lc x Ix. destruct (pa_from _ _ _ _ _ _ _ A c sc x Lc Ix) as [(s0 & L0 & I0)|(Ip & ip & Vp & H)].
      - rewrite lookup_dict_set in L0. destruct (String.eqb_spec b c) as [<-|N]; [|eapply U; eauto]. injection L0 as <-. eapply U; eauto.
      - destruct H as [H|H]; [eapply phi_uses_universe; eauto|]. apply diff_In in H. apply Iu. tauto. }
    assert (exists n, forall fuel, n <= fuel -> exists r, analyze_loop fuel vs info' pend' = Ok r) as (n & Hn).
    { destruct M as [M|M].
      - eapply IHd with (m := deficit info'); [lia|lia|apply Nat.le_refl|exact I'|exact U'].
      - destruct (Nat.le_gt_cases (deficit info') (d - 1)) as [Q|Q]; [destruct (Nat.eq_dec d 0) as [->|Nd]|].
        + eapply IHw with (m := weights pend'); [|lia|apply Nat.le_refl|exact I'|exact U'].
          assert (weights pend' * bound < (weight b + weights pend) * bound); [|unfold weights in *; simpl in Hw; nia].
          assert (length (i_preds i) < bound).
          { unfold bound. apply Nat.lt_succ_r, list_max_In. apply in_map_iff. exists (b, i). split; [reflexivity|now apply lookup_In]. }
          assert (0 < weight b) by (unfold weight; apply Nat.neq_0_lt_0, Nat.pow_nonzero; unfold bound; lia). nia.
        + eapply IHd with (m := deficit info'); [lia|lia|apply Nat.le_refl|exact I'|exact U'].
        + eapply IHw with (m := weights pend'); [|lia|apply Nat.le_refl|exact I'|exact U'].
          assert (weights pend' * bound < (weight b + weights pend) * bound); [|unfold weights in *; simpl in Hw; nia].
          assert (length (i_preds i) < bound).
          { unfold bound. apply Nat.lt_succ_r, list_max_In. apply in_map_iff. exists (b, i). split; [reflexivity|now apply lookup_In]. }
          assert (0 < weight b) by (unfold weight; apply Nat.neq_0_lt_0, Nat.pow_nonzero; unfold bound; lia). nia. }
    exists (S n). intros [|fuel] Hf; [lia|]. cbn [analyze_loop]. rewrite L1, L2. cbn [of_option bind propagate_information l_in].
    change (union (s_upward (i_sets i)) _) with (in_of i (l_out st)).
    change ({| l_in := Some _; l_out := _ |}) with (propagate_information i st). rewrite F. cbn [bind fst snd]. apply Hn. lia.
  Qed.
End Termination.

(** The edges along which a visit can be repeated without new information. *)
Definition repeating (g : blocks) (p s : string) : Prop := flow g p s /\ exists s', flow g p s' /\ has_phis g s'.
Definition repeating_edges (g : blocks) : list (string * string) :=
  flat_map (fun kb => if existsb (fun s => match lookup s g with Some sb => match phi_instrs sb with [] => false | _ => true end | None => false end) (lb_succs (snd kb))
     then map (fun s => (fst kb, s)) (lb_succs (snd kb)) else []) g.
Lemma repeating_edges_iff g p s : NoDup (map fst g) -> (In (p, s) (repeating_edges g) <-> repeating g p s).
Proof.
  intros N. unfold repeating_edges. rewrite in_flat_map. split.
  - intros ([k b] & I & H). cbn [fst snd] in H. destruct (existsb _ (lb_succs b)) eqn:E; [|destruct H].
    apply in_map_iff in H as (s0 & Q & Is). injection Q as <- <-. pose proof (lookup_NoDup _ _ _ N I) as L. split; [exists b; auto|].
    apply existsb_exists in E as (s' & Is' & Q). exists s'. split; [exists b; auto|]. destruct (lookup s' g) as [sb|] eqn:Ls; [|discriminate].
    exists sb. split; [exact Ls|]. destruct (phi_instrs sb); congruence.
  - intros ((b & L & Is) & s' & (b' & L' & Is') & sb & Ls & Np). rewrite L in L'. injection L' as <-. exists (p, b). split; [now apply lookup_In|]. cbn [fst snd].
    assert (existsb (fun s => match lookup s g with Some sb => match phi_instrs sb with [] => false | _ => true end | None => false end) (lb_succs b) = true) as ->.
    { apply existsb_exists. exists s'. split; [exact Is'|]. rewrite Ls. destruct (phi_instrs sb); [contradiction|reflexivity]. }
    apply in_map_iff. eauto.
Qed.

(** C12.  The iteration ends if no cycle consists of repeating edges only. *)
Theorem liveness_terminates_partial : forall g T, ssa_graph g -> (forall t, In t T -> lookup t g <> None) ->
  acyclic_graph (repeating g) -> exists n, forall fuel, n <= fuel -> exists info, liveness_analysis fuel g T = Ok info.
Proof.
  intros g T W Ht A. destruct (construct_ok g W) as (vs & C & K & H).
  assert (acyclic (repeating_edges g)) as A'.
  { intros x Cx. apply (A x). revert Cx. generalize x at 1 3. intros y Cx. induction Cx as [a b D|a b c _ I1 _ I2]; [apply t_step|eapply t_trans; eauto].
    unfold dep in D. now apply repeating_edges_iff in D; [|apply (sg_keys g W)]. }
  destruct (dependency_levels_correct _ A') as (m & _ & _ & [Dm Ab _]).
  set (rank := fun b => match lookup b m with Some l => l | None => 0 end).
  assert (R : forall p s ip is_, lookup p vs = Some ip -> lookup s vs = Some is_ -> In p (i_preds is_) -> i_pred_phi_defs ip <> [] -> rank p < rank s).
  { intros p s ip is_ Lp Ls Ip Nd. destruct (pred_info g vs W K H s is_ p Ls Ip) as (ip' & bp & Lp' & Gp & Op & Is). rewrite Lp in Lp'. injection Lp' as <-.
    assert (In (p, s) (repeating_edges g)) as Ie.
    { apply repeating_edges_iff; [apply (sg_keys g W)|]. split; [exists bp; auto|]. destruct (i_pred_phi_defs ip) as [|d ds] eqn:D; [contradiction|].
      destruct (proj1 (io_pred_phi_defs _ _ _ _ Op d)) as (s' & sb & Is' & Ls' & Id); [rewrite D; now left|]. exists s'. split; [exists bp; auto|].
      exists sb. split; [exact Ls'|]. intros E. unfold phi_results in Id. rewrite E in Id. destruct Id. }
    assert (X : lookup p m <> None) by (apply Dm; unfold endpoint; eauto). assert (Y : lookup s m <> None) by (apply Dm; unfold endpoint; eauto).
    unfold rank. destruct (lookup p m) as [lp|] eqn:Ep; [|contradiction]. destruct (lookup s m) as [ls|] eqn:Es; [|contradiction]. eapply Ab; eauto. }
  destruct (loop_total g vs T W K H rank R _ _ _ _ (Nat.le_refl _) (Nat.le_refl (weights vs rank (rev T))) (initial_inv g vs T K Ht)) as (n & Hn).
  { intros b st L. rewrite initial_lookup in L. destruct (in_dec string_dec b T); [injection L as <-; intros x []|discriminate]. }
  exists n. intros fuel Hf. unfold liveness_analysis. rewrite C. cbn [bind].
  destruct (map_result_exists (fun t => of_option (lookup t vs)) T) as (l & El).
  { intros t It. pose proof (proj2 (K t) (Ht t It)) as Q. destruct (lookup t vs); [cbn; eauto|contradiction]. }
  rewrite El. cbn [bind]. apply Hn, Hf.
Qed.
Print Assumptions liveness_terminates_partial.

(* --- a loop that meets all hypotheses --- *)
Definition phi_of (x a b : string) : linstr := plain_instr "PhiFunction" [a; b] [x].
Definition loop_graph : blocks :=
  [("E", Build_lblock ["S"] [] [] [plain_instr "calldataload" ["0x00"] ["a"]]);
   ("S", Build_lblock ["B"; "X"] ["E"; "B"] ["E"; "B"] [phi_of "x" "a" "y"; plain_instr "lt" ["n"; "x"] ["c"]]);
   ("B", Build_lblock ["S"] ["S"] [] [plain_instr "add" ["x"; "0x01"] ["y"]]);
   ("X", Build_lblock [] ["S"] [] [plain_instr "return" ["x"; "m"] []])].
Ltac each L := apply lookup_In in L; simpl in L; repeat (destruct L as [L|L]; [injection L as <- <-|]); try destruct L.
Ltac pick I := simpl in I; repeat (destruct I as [<-|I]); try destruct I.
Ltac nodup := repeat constructor; simpl; intuition congruence.
Ltac check_graph := constructor;
  [ nodup
  | intros b bb s L I; each L; pick I; eexists; (split; [reflexivity|simpl; tauto])
  | intros b bb s L I; each L; pick I; eexists; (split; [reflexivity|simpl; tauto])
  | intros b bb L; each L; reflexivity
  | intros b bb L; each L; first [left; split; reflexivity | right; split; [nodup|split; [intros z Z; pick Z; simpl; tauto|intros z Z; pick Z; reflexivity]]] ].
Lemma loop_graph_ssa : ssa_graph loop_graph.
Proof. check_graph. Qed.
Example loop_graph_hypotheses : ssa_graph loop_graph /\ (forall t, In t ["X"] -> lookup t loop_graph <> None)
  /\ (forall t tb, In t ["X"] -> lookup t loop_graph = Some tb -> lb_succs tb = [])
  /\ (forall b s s', flow loop_graph b s -> flow loop_graph b s' -> has_phis loop_graph s -> s' = s)
  /\ acyclic_graph (repeating loop_graph).
Proof.
  split; [exact loop_graph_ssa|]. split; [intros t I; pick I; discriminate|]. split; [intros t tb I L; pick I; injection L as <-; reflexivity|].
  split.
  - intros b s s' (bb & L & I) (bb' & L' & I') (sb & Ls & N). rewrite L in L'. injection L' as <-. each L; pick I; pick I'; try reflexivity;
      injection Ls as <-; exfalso; apply N; reflexivity.
  - assert (G : forall x y, clos_trans string (repeating loop_graph) x y -> (x = "E" \/ x = "B") /\ y = "S").
    { intros x y C. induction C as [x y R|x y z _ [A1 A2] _ [B1 B2]]; [|split; [exact A1|exact B2]].
      apply (repeating_edges_iff loop_graph x y (sg_keys _ loop_graph_ssa)) in R. simpl in R. repeat (destruct R as [R|R]; [injection R as <- <-; auto|]). destruct R. }
    intros x C. apply G in C as ([->| ->] & E); discriminate E.
Qed.
Example loop_graph_result : exists info, liveness_analysis 20 loop_graph ["X"] = Ok info
  /\ option_map l_out (lookup "S" info) = Some ["x"; "m"; "n"] /\ option_map l_out (lookup "B" info) = Some ["y"; "n"; "m"].
Proof. eexists. split; [vm_compute; reflexivity|]. split; vm_compute; reflexivity. Qed.

(* --- refutations of the unrestricted statements --- *)
(** Two blocks H and L that are entered from E and jump to each other, both
    with a phi function: the iteration never ends. *)
Definition irreducible : blocks :=
  [("E", Build_lblock ["H"; "L"] [] [] []);
   ("H", Build_lblock ["L"] ["E"; "L"] ["E"; "L"] [phi_of "x" "0x01" "0x02"]);
   ("L", Build_lblock ["H"; "X"] ["E"; "H"] ["E"; "H"] [phi_of "y" "0x03" "0x04"]);
   ("X", Build_lblock [] ["L"] [] [])].
Lemma loop_unfold fuel vs info b pend st i r : lookup b info = Some st -> lookup b vs = Some i ->
  for_each (process_jump vs (in_of i (l_out st))) (i_preds i) (dict_set b (propagate_information i st) info, pend) = Ok r ->
  analyze_loop (S fuel) vs info (b :: pend) = analyze_loop fuel vs (fst r) (snd r).
Proof.
  intros L1 L2 F. cbn [analyze_loop]. rewrite L1, L2. cbn [of_option bind propagate_information l_in].
  change (union (s_upward (i_sets i)) _) with (in_of i (l_out st)).
  change ({| l_in := Some _; l_out := _ |}) with (propagate_information i st). now rewrite F.
Qed.
Definition irreducible_vs : list (string * binfo) := match construct_analysis_info irreducible with Ok vs => vs | Raise _ => [] end.
Definition irreducible_state (h : option (list string)) : infos :=
  [("X", {| l_in := Some []; l_out := [] |}); ("L", {| l_in := Some ["y"]; l_out := [] |});
   ("E", {| l_in := None; l_out := [] |}); ("H", {| l_in := h; l_out := [] |})].
Lemma irreducible_loop : forall fuel rest,
  (forall h, analyze_loop fuel irreducible_vs (irreducible_state h) ("H" :: rest) = Raise OutOfFuel)
  /\ analyze_loop fuel irreducible_vs (irreducible_state (Some ["x"])) ("L" :: rest) = Raise OutOfFuel.
Proof.
  induction fuel as [|fuel IH]; intros rest; [split; reflexivity|]. split.
  - intros h. erewrite loop_unfold by (vm_compute; reflexivity). cbn [fst snd]. exact (proj2 (IH ("E" :: rest))).
  - erewrite loop_unfold by (vm_compute; reflexivity). cbn [fst snd]. exact (proj1 (IH ("E" :: rest)) (Some ["x"])).
Qed.
Theorem liveness_diverges_refuted : exists g T, ssa_graph g /\ (forall t, In t T -> lookup t g <> None)
  /\ forall fuel, liveness_analysis fuel g T = Raise OutOfFuel.
Proof.
  exists irreducible, ["X"]. split; [check_graph|]. split; [intros t I; pick I; discriminate|].
  intros fuel. unfold liveness_analysis. replace (construct_analysis_info irreducible) with (Ok irreducible_vs) by (vm_compute; reflexivity). cbn [bind].
  replace (map_result (fun t => of_option (lookup t irreducible_vs)) ["X"]) with (Ok (match lookup "X" irreducible_vs with Some i => [i] | None => [] end)) by (vm_compute; reflexivity).
  cbn [bind fold_left rev app]. destruct fuel as [|fuel]; [reflexivity|]. erewrite loop_unfold by (vm_compute; reflexivity). cbn [fst snd].
  destruct fuel as [|fuel]; [reflexivity|]. erewrite loop_unfold by (vm_compute; reflexivity). cbn [fst snd].
  exact (proj1 (irreducible_loop fuel ["E"]) None).
Qed.
Print Assumptions liveness_diverges_refuted.

(** A variable that is read in an endless loop (no terminal block can be
    reached from it) is not reported before the loop. *)
Definition endless : blocks :=
  [("A", Build_lblock ["B"; "X"] [] [] [plain_instr "calldataload" ["0x00"] ["v"]]);
   ("B", Build_lblock ["C"] ["A"; "C"] [] [plain_instr "sstore" ["0x00"; "v"] []]);
   ("C", Build_lblock ["B"] ["B"] [] []);
   ("X", Build_lblock [] ["A"] [] [])].
Theorem liveness_endless_loop_refuted : exists fuel g T info b v st, ssa_graph g /\ (forall t, In t T -> lookup t g <> None)
  /\ (forall t tb, In t T -> lookup t g = Some tb -> lb_succs tb = []) /\ (forall s, ~ has_phis g s)
  /\ liveness_analysis fuel g T = Ok info /\ lookup b info = Some st
  /\ is_const v = false /\ live_out_at g b v /\ ~ In v (l_out st).
Proof.
  exists 5, endless, ["X"]. eexists. exists "A", "v". eexists. split; [check_graph|]. split; [intros t I; pick I; discriminate|].
  split; [intros t tb I L; pick I; injection L as <-; reflexivity|]. split; [intros s (sb & L & N); each L; apply N; reflexivity|].
  split; [vm_compute; reflexivity|]. split; [reflexivity|]. split; [reflexivity|]. split; [|simpl; tauto].
  exists ["B"]. split; [split; [eexists; split; [reflexivity|simpl; tauto]|exact I]|]. exists [Read "0x00"], []. split; [reflexivity|]. simpl. intuition discriminate.
Qed.

(** A block with two successors, one of which has phi functions: the result x
    of the phi function is read in the other successor but not reported. *)
Definition critical : blocks :=
  [("E", Build_lblock ["S"] [] [] []);
   ("S", Build_lblock ["S2"] ["E"; "S2"] ["E"; "S2"] [phi_of "x" "0x00" "y"]);
   ("S2", Build_lblock ["S"; "X"] ["S"] [] [plain_instr "add" ["x"; "0x01"] ["y"]]);
   ("X", Build_lblock [] ["S2"] [] [plain_instr "sstore" ["0x00"; "x"] []])].
Theorem liveness_critical_edge_refuted : exists fuel g T info b v st, ssa_graph g /\ (forall t, In t T -> lookup t g <> None)
  /\ (forall t tb, In t T -> lookup t g = Some tb -> lb_succs tb = [])
  /\ (forall c, lookup c g <> None -> exists t, In t T /\ clos_refl_trans string (flow g) c t)
  /\ liveness_analysis fuel g T = Ok info /\ lookup b info = Some st
  /\ is_const v = false /\ live_out_at g b v /\ ~ In v (l_out st).
Proof.
  exists 20, critical, ["X"]. eexists. exists "S2", "x". eexists. split; [check_graph|]. split; [intros t I; pick I; discriminate|].
  split; [intros t tb I L; pick I; injection L as <-; reflexivity|].
  split.
  { assert (F1 : clos_refl_trans string (flow critical) "S2" "X") by (apply rt_step; eexists; split; [reflexivity|simpl; tauto]).
    assert (F2 : clos_refl_trans string (flow critical) "S" "X") by (eapply rt_trans; [apply rt_step; eexists; split; [reflexivity|simpl; left; reflexivity]|exact F1]).
    intros c N. exists "X". split; [now left|]. destruct (lookup c critical) as [cb|] eqn:L; [|contradiction]. each L; auto; [|apply rt_refl].
    eapply rt_trans; [apply rt_step; eexists; split; [reflexivity|simpl; left; reflexivity]|exact F2]. }
  split; [vm_compute; reflexivity|]. split; [reflexivity|]. split; [reflexivity|]. split; [|simpl; intuition discriminate].
  exists ["X"]. split; [split; [eexists; split; [reflexivity|simpl; tauto]|exact I]|]. exists [Read "0x00"], []. split; [reflexivity|]. simpl. intuition discriminate.
Qed.

(** The result of a phi function that is never read is reported at the start
    of its block. *)
Theorem liveness_dead_phi_refuted : exists fuel g T info b v st live_in, ssa_graph g /\ (forall t, In t T -> lookup t g <> None)
  /\ liveness_analysis fuel g T = Ok info /\ lookup b info = Some st /\ l_in st = Some live_in /\ In v live_in /\ ~ live_in_at g b v.
Proof.
  exists 5, [("E", Build_lblock ["S"] [] [] []); ("S", Build_lblock [] ["E"] ["E"] [plain_instr "PhiFunction" ["0x01"] ["x"]])], ["S"].
  eexists. exists "S", "x". do 2 eexists. split; [check_graph|]. split; [intros t I; pick I; discriminate|].
  split; [vm_compute; reflexivity|]. split; [reflexivity|]. split; [reflexivity|]. split; [simpl; tauto|].
  intros (bb & path & L & P & N). destruct path as [|s path].
  - injection L as <-. exact (needed_nil _ N).
  - destruct P as ((bb' & L' & I) & _). injection L' as <-. destruct I.
Qed.
