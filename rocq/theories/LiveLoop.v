(** C10-C12: invariants of the fixpoint iteration. *)
From Coq Require Import Relations.
From Verif Require Import Base UtilModel UtilProps LevelProps GraphProps UnifyProps LiveModel LiveSpec LiveProps.
Open Scope string_scope. Open Scope list_scope.

Definition in_of (i : binfo) (out : list string) : list string :=
  union (s_upward (i_sets i)) (union (s_phi_defs (i_sets i)) (diff out (s_defs (i_sets i)))).

Lemma last_cons {A} (path : list A) : forall s b, last (s :: path) b = last path s.
Proof. induction path as [|s' path IH]; intros s b; [reflexivity|]. change (last (s :: s' :: path) b) with (last (s' :: path) b). rewrite IH. symmetry. apply IH. Qed.

Section Loop.
  Variables (g : blocks) (vs : list (string * binfo)) (T : list string).
  Hypotheses (W : ssa_graph g)
    (Kvs : forall b, lookup b vs <> None <-> lookup b g <> None)
    (Hvs : forall b bb, lookup b g = Some bb -> exists i, lookup b vs = Some i /\ info_ok g b bb i).

  Lemma vs_info b i : lookup b vs = Some i -> exists bb, lookup b g = Some bb /\ info_ok g b bb i.
  Proof.
    intros L. destruct (lookup b g) as [bb|] eqn:E.
    - exists bb. split; [reflexivity|]. destruct (Hvs b bb E) as (i' & L' & H). rewrite L in L'. injection L' as <-. exact H.
    - exfalso. apply (proj1 (Kvs b)); congruence.
  Qed.
  Lemma pred_info b i p : lookup b vs = Some i -> In p (i_preds i) -> exists ip bp, lookup p vs = Some ip /\ lookup p g = Some bp /\ info_ok g p bp ip /\ In b (lb_succs bp).
  Proof.
    intros L Ip. destruct (vs_info b i L) as (bb & Lb & Ob). rewrite (io_preds _ _ _ _ Ob) in Ip.
    destruct (sg_pred g W b bb p Lb Ip) as (bp & Lp & Is). destruct (Hvs p bp Lp) as (ip & Lip & Op). eauto 8.
  Qed.

  (** What a pass over some predecessors does. *)
  Record passed (input : list string) (ps : list string) (info : infos) (pend : list string) (info' : infos) (pend' : list string) : Prop := {
    pa_pend : incl pend pend';
    pa_new : forall b, In b pend' -> In b pend \/ In b ps;
    pa_old : forall b st, lookup b info = Some st -> exists st', lookup b info' = Some st' /\ l_in st' = l_in st
               /\ incl (l_out st) (l_out st') /\ (st' = st \/ In b pend');
    pa_add : forall b st', lookup b info' = Some st' -> lookup b info = None -> In b pend' /\ In b ps;
    pa_done : forall p, In p ps -> exists ip st', lookup p vs = Some ip /\ lookup p info' = Some st' /\ incl (diff input (i_pred_phi_defs ip)) (l_out st');
    pa_phi : forall b st', lookup b info' = Some st' -> lookup b info = Some st' \/ (In b ps /\ exists ip, lookup b vs = Some ip /\ incl (i_phi_uses ip) (l_out st'));
    pa_from : forall b st' x, lookup b info' = Some st' -> In x (l_out st') -> (exists st, lookup b info = Some st /\ In x (l_out st))
               \/ (In b ps /\ exists ip, lookup b vs = Some ip /\ (In x (i_phi_uses ip) \/ In x (diff input (i_pred_phi_defs ip))))
  }.
  Lemma process_jump_ok input p info pend ip : lookup p vs = Some ip ->
    exists info' pend', process_jump vs input (info, pend) p = Ok (info', pend') /\ passed input [p] info pend info' pend'.
  Proof.
    intros Lp. unfold process_jump. destruct (lookup p info) as [st|] eqn:E.
    - destruct (subset input (l_out st)) eqn:S.
      + apply subset_incl in S. exists info, pend. split; [reflexivity|]. constructor.
        * apply incl_refl.
        * auto.
        * intros b st' L. exists st'. split; [exact L|split; [reflexivity|split; [apply incl_refl|now left]]].
        * intros b st' L L'. congruence.
        * intros q [<-|[]]. exists ip, st. split; [exact Lp|split; [exact E|]]. intros x I. apply diff_In in I. apply S. tauto.
        * auto.
        * intros b st' x L I. left. eauto.
      + rewrite Lp. cbn [of_option bind]. do 2 eexists. split; [reflexivity|]. constructor.
        * intros x I. now right.
        * intros b [<-|I]; [right; now left|now left].
        * intros b st0 L. rewrite lookup_dict_set. destruct (String.eqb_spec p b) as [<-|N].
          -- rewrite E in L. injection L as <-. eexists. split; [reflexivity|]. cbn. split; [reflexivity|]. split; [|right; now left].
             intros x I. apply union_In. now left.
          -- exists st0. split; [exact L|split; [reflexivity|split; [apply incl_refl|now left]]].
        * intros b st' L L'. rewrite lookup_dict_set in L. destruct (String.eqb_spec p b) as [<-|N]; [congruence|congruence].
        * intros q [<-|[]]. exists ip. eexists. split; [exact Lp|]. rewrite lookup_dict_set, String.eqb_refl. split; [reflexivity|].
          cbn. intros x I. rewrite !union_In. tauto.
        * intros b st' L. rewrite lookup_dict_set in L. destruct (String.eqb_spec p b) as [<-|N]; [|now left]. injection L as <-.
          right. split; [now left|]. exists ip. split; [exact Lp|]. cbn. intros x I. rewrite !union_In. tauto.
        * intros b st' x L I. rewrite lookup_dict_set in L. destruct (String.eqb_spec p b) as [<-|N]; [|left; eauto]. injection L as <-.
          cbn in I. rewrite !union_In in I. destruct I as [I|I]; [left; eauto|]. right. split; [now left|]. exists ip. auto.
    - rewrite Lp. cbn [of_option bind]. do 2 eexists. split; [reflexivity|]. constructor.
      * intros x I. now right.
      * intros b [<-|I]; [right; now left|now left].
      * intros b st0 L. rewrite lookup_dict_set. destruct (String.eqb_spec p b) as [<-|N]; [congruence|].
        exists st0. split; [exact L|split; [reflexivity|split; [apply incl_refl|now left]]].
      * intros b st' L L'. rewrite lookup_dict_set in L. destruct (String.eqb_spec p b) as [<-|N]; [split; now left|congruence].
      * intros q [<-|[]]. exists ip. eexists. split; [exact Lp|]. rewrite lookup_dict_set, String.eqb_refl. split; [reflexivity|].
        cbn [propagate_state l_out]. intros x I. rewrite !union_In. tauto.
      * intros b st' L. rewrite lookup_dict_set in L. destruct (String.eqb_spec p b) as [<-|N]; [|now left]. injection L as <-.
        right. split; [now left|]. exists ip. split; [exact Lp|]. cbn [propagate_state l_out]. intros x I. rewrite !union_In. tauto.
      * intros b st' x L I. rewrite lookup_dict_set in L. destruct (String.eqb_spec p b) as [<-|N]; [|left; eauto]. injection L as <-.
        cbn [propagate_state l_out] in I. rewrite !union_In in I. destruct I as [[]|I]. right. split; [now left|]. exists ip. auto.
  Qed.
  Lemma passed_trans input ps1 ps2 i0 p0 i1 p1 i2 p2 : passed input ps1 i0 p0 i1 p1 -> passed input ps2 i1 p1 i2 p2 -> passed input (ps1 ++ ps2) i0 p0 i2 p2.
  Proof.
    intros A B. constructor.
    - intros x I. apply (pa_pend _ _ _ _ _ _ B), (pa_pend _ _ _ _ _ _ A), I.
    - intros b I. rewrite in_app_iff. destruct (pa_new _ _ _ _ _ _ B b I) as [I'|I']; [|tauto]. destruct (pa_new _ _ _ _ _ _ A b I'); tauto.
    - intros b st L. destruct (pa_old _ _ _ _ _ _ A b st L) as (s1 & L1 & E1 & I1 & D1). destruct (pa_old _ _ _ _ _ _ B b s1 L1) as (s2 & L2 & E2 & I2 & D2).
      exists s2. split; [exact L2|]. split; [congruence|]. split; [eapply incl_tran; eauto|]. destruct D2 as [->|D2]; [|now right].
      destruct D1 as [->|D1]; [now left|]. right. now apply (pa_pend _ _ _ _ _ _ B).
    - intros b st' L N. rewrite in_app_iff. destruct (lookup b i1) as [s1|] eqn:L1.
      + destruct (pa_add _ _ _ _ _ _ A b s1 L1 N) as (H1 & H2). split; [now apply (pa_pend _ _ _ _ _ _ B)|now left].
      + destruct (pa_add _ _ _ _ _ _ B b st' L L1). auto.
    - intros p I. apply in_app_iff in I as [I|I]; [|now apply (pa_done _ _ _ _ _ _ B)].
      destruct (pa_done _ _ _ _ _ _ A p I) as (ip & s1 & V1 & L1 & D1). destruct (pa_old _ _ _ _ _ _ B p s1 L1) as (s2 & L2 & _ & I2 & _).
      exists ip, s2. split; [exact V1|split; [exact L2|]]. eapply incl_tran; eauto.
    - intros b s2 L2. destruct (pa_phi _ _ _ _ _ _ B b s2 L2) as [L1|(I & H)]; [|right; rewrite in_app_iff; auto].
      destruct (pa_phi _ _ _ _ _ _ A b s2 L1) as [L0|(I & H)]; [now left|right; rewrite in_app_iff; auto].
    - intros b s2 x L2 Ix. destruct (pa_from _ _ _ _ _ _ B b s2 x L2 Ix) as [(s1 & L1 & I1)|(I & H)]; [|right; rewrite in_app_iff; auto].
      destruct (pa_from _ _ _ _ _ _ A b s1 x L1 I1) as [H|(I & H)]; [now left|right; rewrite in_app_iff; auto].
  Qed.
  Lemma process_jumps_ok input : forall ps info pend, (forall p, In p ps -> lookup p vs <> None) ->
    exists info' pend', for_each (process_jump vs input) ps (info, pend) = Ok (info', pend') /\ passed input ps info pend info' pend'.
  Proof.
    induction ps as [|p ps IH]; intros info pend H.
    - exists info, pend. split; [reflexivity|]. constructor; auto using incl_refl.
      + intros b st L. exists st. auto using incl_refl.
      + intros b st L L'. congruence.
      + intros p [].
      + intros b st x L I. left. eauto.
    - destruct (lookup p vs) as [ip|] eqn:Lp; [|exfalso; apply (H p); [now left|exact Lp]].
      destruct (process_jump_ok input p info pend ip Lp) as (i1 & p1 & E1 & P1). cbn [for_each]. rewrite E1. cbn [bind].
      destruct (IH i1 p1) as (i2 & p2 & E2 & P2); [intros q I; apply H; now right|]. rewrite E2. exists i2, p2. split; [reflexivity|].
      change (p :: ps) with ([p] ++ ps). eapply passed_trans; eauto.
  Qed.

  (** Block [b] with state [st] has been visited since its last change. *)
  Definition settled (info : infos) (b : string) (st : lstate) : Prop :=
    exists i, lookup b vs = Some i /\ l_in st = Some (in_of i (l_out st))
      /\ forall p, In p (i_preds i) -> exists ip sp, lookup p vs = Some ip /\ lookup p info = Some sp
           /\ incl (diff (in_of i (l_out st)) (i_pred_phi_defs ip)) (l_out sp).
  Record inv (info : infos) (pend : list string) : Prop := {
    in_settled : forall b st, lookup b info = Some st -> In b pend \/ settled info b st;
    in_phi : forall b st, lookup b info = Some st -> In b T \/ exists i, lookup b vs = Some i /\ incl (i_phi_uses i) (l_out st);
    in_pend : forall b, In b pend -> lookup b info <> None;
    in_vs : forall b, lookup b info <> None -> lookup b vs <> None;
    in_term : forall t, In t T -> lookup t info <> None;
    in_min : forall b st x, lookup b info = Some st -> In x (l_out st) -> is_const x = false /\ live_out_at g b x
  }.
  (** What is live after the phi functions of a block, given what is live at
      its end. *)
  Lemma in_of_min b i out x : lookup b vs = Some i -> (forall y, In y out -> is_const y = false /\ live_out_at g b y) ->
    In x (in_of i out) -> In x (s_phi_defs (i_sets i)) \/ (is_const x = false /\ live_in_at g b x).
  Proof.
    intros L H I. destruct (vs_info b i L) as (bb & Lb & O). unfold in_of in I. rewrite !union_In, diff_In in I.
    destruct I as [I|[I|(I & N)]]; [|now left|].
    - destruct (proj1 (io_upward _ _ _ _ O x) I) as (C & _ & I2). right. split; [exact C|]. exists bb, []. simpl. rewrite app_nil_r. auto.
    - rewrite (io_defs _ _ _ _ O) in N. destruct (H x I) as (C & path & P & Q). right. split; [exact C|]. exists bb, path. split; [exact Lb|split; [exact P|]].
      apply needed_app. auto.
  Qed.
  Lemma step_min b i p ip out x : lookup b vs = Some i -> In p (i_preds i) -> lookup p vs = Some ip ->
    (forall y, In y out -> is_const y = false /\ live_out_at g b y) ->
    In x (i_phi_uses ip) \/ In x (diff (in_of i out) (i_pred_phi_defs ip)) -> is_const x = false /\ live_out_at g p x.
  Proof.
    intros L Ip Lp H Hx. destruct (pred_info b i p L Ip) as (ip' & bp & Lp' & Gp & Op & Is). rewrite Lp in Lp'. injection Lp' as <-.
    destruct Hx as [Hx|Hx].
    - destruct (proj1 (io_phi_uses _ _ _ _ Op x) Hx) as (C & s & sb & Is' & Ls & A). split; [exact C|]. exists [s]. split.
      + split; [|exact I]. eauto.
      + simpl. rewrite Ls. apply needed_enter. now left.
    - apply diff_In in Hx as (Hx & N). destruct (vs_info b i L) as (bb & Lb & Ob).
      rewrite (io_pred_phi_defs _ _ _ _ Op) in N.
      destruct (in_of_min b i out x L H Hx) as [D|(C & bb' & path & Lb' & P & Q)].
      + exfalso. apply N. exists b, bb. split; [exact Is|split; [exact Lb|]]. now apply (io_phi_defs _ _ _ _ Ob).
      + split; [exact C|]. exists (b :: path). split; [split; [eauto|exact P]|]. simpl. rewrite Lb. rewrite Lb in Lb'. injection Lb' as <-.
        apply needed_enter. right. split; [|exact Q]. intros D. apply N. eauto.
  Qed.

  Lemma loop_step info b pend : inv info (b :: pend) ->
    exists st i info' pend', lookup b info = Some st /\ lookup b vs = Some i
      /\ for_each (process_jump vs (in_of i (l_out st))) (i_preds i) (dict_set b (propagate_information i st) info, pend) = Ok (info', pend')
      /\ passed (in_of i (l_out st)) (i_preds i) (dict_set b (propagate_information i st) info) pend info' pend'
      /\ inv info' pend'.
  Proof.
    intros [S F P V Tm M]. destruct (lookup b info) as [st|] eqn:Lb; [|exfalso; apply (P b); [now left|exact Lb]].
    destruct (lookup b vs) as [i|] eqn:Vb; [|exfalso; apply (V b); congruence]. exists st, i.
    destruct (process_jumps_ok (in_of i (l_out st)) (i_preds i) (dict_set b (propagate_information i st) info) pend) as (info' & pend' & E & A).
    { intros p Ip. destruct (pred_info b i p Vb Ip) as (ip & _ & L & _). congruence. }
    exists info', pend'. split; [reflexivity|split; [reflexivity|split; [exact E|split; [exact A|]]]].
    assert (Old : forall c sc, lookup c info = Some sc -> exists sc', lookup c info' = Some sc' /\ incl (l_out sc) (l_out sc')).
    { intros c sc Lc. destruct (String.eqb_spec b c) as [<-|N].
      - rewrite Lb in Lc. injection Lc as <-. destruct (pa_old _ _ _ _ _ _ A b (propagate_information i st)) as (s' & L' & _ & I' & _).
        + now rewrite lookup_dict_set, String.eqb_refl.
        + exists s'. auto.
      - destruct (pa_old _ _ _ _ _ _ A c sc) as (s' & L' & _ & I' & _); [rewrite lookup_dict_set; destruct (String.eqb_spec b c); [contradiction|exact Lc]|].
        exists s'. auto. }
    constructor.
    - intros c sc Lc. destruct (lookup c (dict_set b (propagate_information i st) info)) as [s0|] eqn:L0.
      + destruct (pa_old _ _ _ _ _ _ A c s0 L0) as (s1 & L1 & _ & _ & D). rewrite Lc in L1. injection L1 as <-. destruct D as [->|D]; [|now left].
        rewrite lookup_dict_set in L0. destruct (String.eqb_spec b c) as [<-|N].
        * injection L0 as <-. right. exists i. split; [exact Vb|]. cbn [propagate_information l_in l_out]. split; [reflexivity|].
          intros p Ip. destruct (pa_done _ _ _ _ _ _ A p Ip) as (ip & sp & H1 & H2 & H3). eauto.
        * destruct (S c s0 L0) as [[<-|I]|(ic & H1 & H2 & H3)]; [contradiction| |].
          -- left. now apply (pa_pend _ _ _ _ _ _ A).
          -- right. exists ic. split; [exact H1|split; [exact H2|]]. intros p Ip. destruct (H3 p Ip) as (ip & sp & V1 & L1 & I1).
             destruct (Old p sp L1) as (sp' & L2 & I2). exists ip, sp'. split; [exact V1|split; [exact L2|]]. eapply incl_tran; eauto.
      + left. now destruct (pa_add _ _ _ _ _ _ A c sc Lc L0).
    - intros c sc Lc. destruct (pa_phi _ _ _ _ _ _ A c sc Lc) as [L0|(_ & H)]; [|now right]. rewrite lookup_dict_set in L0.
      destruct (String.eqb_spec b c) as [<-|N]; [|now apply F]. injection L0 as <-. exact (F b st Lb).
    - intros c Ic. destruct (pa_new _ _ _ _ _ _ A c Ic) as [I|I].
      + pose proof (P c (or_intror I)) as N. destruct (lookup c info) as [sc|] eqn:Lc; [|contradiction]. destruct (Old c sc Lc) as (s' & -> & _). congruence.
      + destruct (pa_done _ _ _ _ _ _ A c I) as (ip & sp & _ & -> & _). congruence.
    - intros c N. destruct (lookup c info') as [sc|] eqn:Lc; [|contradiction].
      destruct (lookup c (dict_set b (propagate_information i st) info)) as [s0|] eqn:L0.
      + rewrite lookup_dict_set in L0. destruct (String.eqb_spec b c) as [<-|Nb]; [congruence|]. apply V. congruence.
      + destruct (pa_add _ _ _ _ _ _ A c sc Lc L0) as (_ & Ip). destruct (pa_done _ _ _ _ _ _ A c Ip) as (ip & _ & -> & _). congruence.
    - intros t It. pose proof (Tm t It) as N. destruct (lookup t info) as [s0|] eqn:L0; [|contradiction]. destruct (Old t s0 L0) as (s' & -> & _). congruence.
    - intros c sc x Lc Ix. destruct (pa_from _ _ _ _ _ _ A c sc x Lc Ix) as [(s0 & L0 & I0)|(Ip & ip & Vp & H)].
      + rewrite lookup_dict_set in L0. destruct (String.eqb_spec b c) as [<-|N]; [|eapply M; eauto]. injection L0 as <-. eapply M; eauto.
      + exact (step_min b i c ip (l_out st) x Vb Ip Vp (fun y Hy => M b st y Lb Hy) H).
  Qed.

  Lemma loop_inv fuel : forall info pend r, inv info pend -> analyze_loop fuel vs info pend = Ok r -> inv r [].
  Proof.
    induction fuel as [|fuel IH]; intros info [|b pend] r I E; cbn [analyze_loop] in E; try (injection E as <-; exact I); try discriminate.
    destruct (loop_step info b pend I) as (st & i & info' & pend' & L1 & L2 & F & _ & I').
    rewrite L1, L2 in E. cbn [of_option bind propagate_information l_in] in E.
    change (union (s_upward (i_sets i)) _) with (in_of i (l_out st)) in E.
    change ({| l_in := Some _; l_out := _ |}) with (propagate_information i st) in E. rewrite F in E. cbn [bind fst snd] in E. eapply IH; eauto.
  Qed.

  (** When nothing is pending, everything live is recorded. *)
  Lemma final_sound info : inv info [] -> (forall t tb, In t T -> lookup t g = Some tb -> lb_succs tb = []) ->
    (forall b s s', flow g b s -> flow g b s' -> has_phis g s -> s' = s) ->
    forall v, is_const v = false -> forall path b, is_path g b path -> lookup (last path b) info <> None -> lookup b g <> None -> needed v (path_events g b path) ->
    exists st, lookup b info = Some st /\ In v (l_out st).
  Proof.
    intros I Ht Hc v Cv. induction path as [|s path IH]; intros b P L Gb N; [destruct (needed_nil _ N)|].
    destruct P as ((bb & Lb & Is) & P). simpl in N. destruct (sg_succ g W b bb s Lb Is) as (sb & Ls & Ip). rewrite Ls in N.
    assert (Info : forall path b, is_path g b path -> lookup (last path b) info <> None -> lookup b info <> None).
    { clear - I W Hvs. induction path as [|s path IH]; intros b P L; [exact L|]. destruct P as ((bb & Lb & Is) & P).
      assert (lookup s info <> None) as Ns. { apply IH; [exact P|]. now rewrite last_cons in L. }
      destruct (lookup s info) as [ss|] eqn:Es; [|contradiction]. destruct (in_settled _ _ I s ss Es) as [[]|(i & Vs & _ & H)].
      destruct (sg_succ g W b bb s Lb Is) as (sb & Ls & Ip). destruct (Hvs s sb Ls) as (i' & Vs' & O). rewrite Vs in Vs'. injection Vs' as <-.
      rewrite <- (io_preds _ _ _ _ O) in Ip. destruct (H b Ip) as (_ & sp & _ & -> & _). congruence. }
    assert (L' : lookup (last path s) info <> None) by (now rewrite last_cons in L).
    pose proof (Info path s P L') as Ns. destruct (lookup s info) as [ss|] eqn:Es; [|contradiction].
    destruct (in_settled _ _ I s ss Es) as [[]|(i & Vs & _ & H)].
    destruct (Hvs s sb Ls) as (i' & Vs' & Os). rewrite Vs in Vs'. injection Vs' as <-. rewrite <- (io_preds _ _ _ _ Os) in Ip.
    destruct (H b Ip) as (ib & st & Vb & Lst & Inc). exists st. split; [exact Lst|].
    destruct (Hvs b bb Lb) as (ib' & Vb' & Ob). rewrite Vb in Vb'. injection Vb' as <-.
    apply needed_enter in N as [N|(N & Q)].
    - destruct (in_phi _ _ I b st Lst) as [It|(ib' & Vb' & Hp)].
      + rewrite (Ht b bb It Lb) in Is. destruct Is.
      + rewrite Vb in Vb'. injection Vb' as <-. apply Hp. apply (io_phi_uses _ _ _ _ Ob). split; [exact Cv|]. eauto.
    - apply Inc. apply diff_In. split.
      + unfold in_of. rewrite !union_In, diff_In. apply needed_app in Q as [Q|(Nw & Q)].
        * left. apply (io_upward _ _ _ _ Os). auto.
        * right. right. split; [|now rewrite (io_defs _ _ _ _ Os)]. destruct (IH s P L') as (ss' & Es' & Iv); [congruence|exact Q|]. rewrite Es in Es'. injection Es' as <-. exact Iv.
      + rewrite (io_pred_phi_defs _ _ _ _ Ob). intros (s2 & sb2 & Is2 & Ls2 & D).
        assert (s = s2) as ->.
        { apply (Hc b s2 s); [exists bb; auto|exists bb; auto|]. exists sb2. split; [exact Ls2|]. unfold phi_results in D. intros E0. rewrite E0 in D. destruct D. }
        rewrite Ls in Ls2. injection Ls2 as <-. contradiction.
  Qed.
  (** All blocks from which a terminal block can be reached are analysed. *)
  Lemma final_covers info : inv info [] -> forall b t, clos_refl_trans string (flow g) b t -> In t T -> lookup b info <> None.
  Proof.
    intros I b t C It. apply clos_rt_rt1n in C. induction C as [b|b s t (bb & Lb & Is) C IH]; [now apply (in_term _ _ I)|].
    specialize (IH It). destruct (lookup s info) as [ss|] eqn:Es; [|contradiction]. destruct (in_settled _ _ I s ss Es) as [[]|(i & Vs & _ & H)].
    destruct (sg_succ g W b bb s Lb Is) as (sb & Ls & Ip). destruct (Hvs s sb Ls) as (i' & Vs' & O). rewrite Vs in Vs'. injection Vs' as <-.
    rewrite <- (io_preds _ _ _ _ O) in Ip. destruct (H b Ip) as (_ & sp & _ & -> & _). congruence.
  Qed.
End Loop.
