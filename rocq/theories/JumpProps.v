(** Property C43: jumps, calls and returns are placed with the right tags, and
    the executions of every component are kept. *)
From Verif Require Import Base UtilModel UtilProps UnifyProps LiveModel CfgModel CfgSpec CfgProps CombineProps JumpModel JumpSpec JumpTrace JumpProofs JumpInsert JumpSplit JumpObject.
Open Scope string_scope. Open Scope list_scope.

Notation ids g := (map fst (cl_blocks g)).
Definition blocks_of (nf : string * cfun) : clist := fn_blocks (snd nf).
Definition all_ids (fs : list (string * cfun)) : list string := flat_map (fun nf => ids (blocks_of nf)) fs.
Lemma all_ids_In fs x : In x (all_ids fs) <-> exists nf, In nf fs /\ In x (ids (blocks_of nf)).
Proof. apply in_flat_map. Qed.
Definition return_of (name : string) (g : clist) : option string := match cl_return g with [] => None | _ => Some ("out_" ++ name)%string end.
Definition args_with (r : option string) (args : list string) : list string := match r with None => args | Some x => x :: args end.

(** ** Insertion in the functions *)
Definition plain_list (fns : list string) (ret : option string) (g : clist) : Prop :=
  consistent g /\ linked g /\ forall x b, lookup x (cl_blocks g) = Some b -> exit_ok b /\ phis_first (cb_instrs b) /\ once fns ret b.
Record inserted (fns : list string) (tags : tag_dict) (nf nf1 : string * cfun) : Prop := {
  in_name : fst nf1 = fst nf;
  in_args : fn_args (snd nf1) = args_with (return_of (fst nf) (blocks_of nf)) (fn_args (snd nf));
  in_consistent : consistent (blocks_of nf1);
  in_linked : linked (blocks_of nf1);
  in_exits : forall x b, lookup x (cl_blocks (blocks_of nf1)) = Some b -> unsplit fns (return_of (fst nf) (blocks_of nf)) tags b;
  in_alike : changed (before fns (return_of (fst nf) (blocks_of nf))) (blocks_of nf) (blocks_of nf1);
  in_ids : ids (blocks_of nf1) = ids (blocks_of nf);
  in_start : exists s t, cl_start (blocks_of nf1) = Some s /\ lookup s tags = Some t
}.
Lemma inserted_grown fns tags tags' nf nf1 : grown tags tags' -> inserted fns tags nf nf1 -> inserted fns tags' nf nf1.
Proof.
  intros M []. split; auto.
  - intros x b L. eapply unsplit_tags; [|eauto]. intros; now apply M.
  - destruct in_start0 as (s & t & S & L). exists s, t. auto.
Qed.
Lemma insert_functions fns : (forall f, In f fns -> ~ In f ["PUSH [tag]"; "JUMP"; "JUMPI"; "functionReturn"; "PhiFunction"]) -> forall fs acc tags, good_tags tags -> (forall nf, In nf fs -> plain_list fns (return_of (fst nf) (blocks_of nf)) (blocks_of nf)) ->
  exists fs1 tags', for_each (fun st nf => do r <- insert_jumps_function (fst nf) (snd nf) (snd st); Ok (fst st ++ [(fst nf, fst r)], snd r)) fs (acc, tags) = Ok (acc ++ fs1, tags')
    /\ good_tags tags' /\ grown tags tags' /\ within (all_ids fs) tags tags' /\ Forall2 (inserted fns tags') fs fs1.
Proof.
  intros NR. induction fs as [|nf fs IH]; intros acc tags G PL.
  - exists [], tags. cbn [for_each]. rewrite app_nil_r. split; [reflexivity|]. split; [exact G|]. split; [apply grown_refl|]. split; [apply within_refl|constructor].
  - destruct (PL nf (or_introl eq_refl)) as (C & LK & XP). cbn [for_each fst snd]. unfold insert_jumps_function at 1. change (fn_blocks (snd nf)) with (blocks_of nf).
    destruct (c_start _ C) as (s & S & SI). rewrite S. cbn [of_option bind]. fold (return_of (fst nf) (blocks_of nf)). set (r := return_of (fst nf) (blocks_of nf)) in *.
    destruct (tag_from_tag_dict s tags) as [t0 tags0] eqn:TG. destruct (tag_request _ _ _ _ G TG) as (G0 & L0 & O0 & M0). cbn [snd].
    destruct (insert_list fns r NR (blocks_of nf) tags0 G0 C LK XP) as (g1 & tags1 & R & G1 & M1 & W1 & C1 & LK1 & AL & KE & ST & RT & XA).
    { intros N. unfold r, return_of. destruct (cl_return (blocks_of nf)); [congruence|discriminate]. }
    rewrite R. cbn [bind fst snd]. destruct (IH (acc ++ [(fst nf, {| fn_args := match r with Some r0 => r0 :: fn_args (snd nf) | None => fn_args (snd nf) end; fn_blocks := g1 |})]) tags1 G1) as (fs1 & tags' & R' & G' & M' & W' & F2).
    { intros; apply PL; now right. }
    eexists (_ :: fs1), tags'. split; [etransitivity; [exact R'|rewrite <- app_assoc; reflexivity]|]. split; [exact G'|]. split; [eapply grown_trans; [exact M0|eapply grown_trans; eauto]|]. split.
    + intros x N. cbn [all_ids flat_map] in N. rewrite W', W1, O0; [reflexivity| | |]; intros H; apply N, in_app_iff; [left; subst; exact SI|now left|now right].
    + constructor; [|exact F2]. apply (inserted_grown fns tags1); [exact M'|]. split; auto.
      * exists s, t0. split; [cbn; rewrite ST; exact S|]. now apply M1.
Qed.

(** ** The tags of the functions *)
Lemma function_tags_ok : forall fs acc tags, NoDup (map fst fs) -> (forall nf, In nf fs -> ~ In (fst nf) (map fst acc)) ->
  (forall nf, In nf fs -> exists s t, cl_start (blocks_of nf) = Some s /\ lookup s tags = Some t) ->
  exists f2t, for_each (fun st nf =>
      do s <- of_option (cl_start (fn_blocks (snd nf)));
      let (t, tags') := tag_from_tag_dict s (snd st) in
      Ok (dict_set (fst nf) t (fst st), tags')) fs (acc, tags) = Ok (acc ++ f2t, tags)
    /\ map fst f2t = map fst fs /\ (forall nf, In nf fs -> exists s t, cl_start (blocks_of nf) = Some s /\ lookup s tags = Some t /\ lookup (fst nf) f2t = Some t).
Proof.
  induction fs as [|nf fs IH]; intros acc tags ND FR H.
  - exists []. cbn [for_each]. rewrite app_nil_r. split; [reflexivity|]. split; [reflexivity|]. intros nf [].
  - cbn [map fst] in ND. inversion ND as [|? ? N1 N2]; subst. destruct (H nf (or_introl eq_refl)) as (s & t & S & L). cbn [for_each fst snd]. change (fn_blocks (snd nf)) with (blocks_of nf). rewrite S. cbn [of_option bind].
    unfold tag_from_tag_dict at 1. rewrite L. rewrite dict_set_fresh by (apply lookup_None, FR; now left).
    destruct (IH (acc ++ [(fst nf, t)]) tags N2) as (f2t & R & K & LF).
    + intros nf' I J. rewrite map_app in J. apply in_app_iff in J as [J|[J|[]]]; [apply (FR nf'); [now right|exact J]|]. cbn in J. apply N1. rewrite J. now apply in_map.
    + intros nf' I. apply H. now right.
    + exists ((fst nf, t) :: f2t). split; [etransitivity; [exact R|rewrite <- app_assoc; reflexivity]|]. split; [cbn [map fst]; now rewrite K|]. intros nf' [<-|I].
      * exists s, t. split; [exact S|]. split; [exact L|]. cbn [lookup]. now rewrite String.eqb_refl.
      * destruct (LF nf' I) as (s' & t' & S' & L' & F'). exists s', t'. split; [exact S'|]. split; [exact L'|]. cbn [lookup]. destruct (String.eqb_spec (fst nf) (fst nf')) as [Q|]; [|exact F'].
        elim N1. rewrite Q. now apply in_map.
Qed.

(** ** Splitting the functions *)
Lemma well_frame f2t ret g tags tags' P : (forall k, In k (ids g) -> lookup k tags' = lookup k tags) -> well f2t ret g tags P -> well f2t ret g tags' P.
Proof.
  intros H (C & LK & B). split; [exact C|]. split; [exact LK|]. intros x b L. destruct (B x b L) as (X & S & U).
  assert (Q : forall j t, In j (successors b) -> lookup j tags = Some t -> lookup j tags' = Some t) by (intros j t I Lj; rewrite H; [exact Lj|eapply target_known; eauto]).
  split; [eapply exits_tags; eauto|]. split; [|exact U]. intros N. eapply settled_tags; eauto.
Qed.
Record split_from (f2t : tag_dict) (ret : option string) (tags0 : tag_dict) (g : clist) (tags : tag_dict) (g' : clist) : Prop := {
  sf_well : well f2t ret g' tags (fun _ => False);
  sf_alike : changed (before (map fst f2t) ret) g g';
  sf_start : start_kept g tags0 g' tags;
  sf_below : forall k, In k (ids g') -> below (ids g) k
}.
Lemma split_from_frame f2t ret tags0 g tags g' tags' : (forall k, below (ids g) k -> lookup k tags' = lookup k tags) -> split_from f2t ret tags0 g tags g' -> split_from f2t ret tags0 g tags' g'.
Proof.
  intros H [W A S B]. split; auto.
  - eapply well_frame; [|exact W]. intros k I. apply H, B, I.
  - intros s t S0 L0. destruct (S s t S0 L0) as (s' & S' & L'). exists s'. split; [exact S'|]. rewrite H; [exact L'|]. apply B.
    destruct W as (C & _). destruct (c_start _ C) as (s2 & Q & I). rewrite S' in Q. injection Q as <-. exact I.
Qed.
Definition ready (fns : list string) (ret : option string) (g : clist) (tags : tag_dict) : Prop :=
  consistent g /\ linked g /\ (forall x b, lookup x (cl_blocks g) = Some b -> unsplit fns ret tags b) /\ (forall x, In x (ids g) -> free_below x (ids g) tags).
Lemma ready_frame fns ret g tags tags' : (forall k, below (ids g) k -> lookup k tags' = lookup k tags) -> ready fns ret g tags -> ready fns ret g tags'.
Proof.
  intros H (C & LK & X & FB). split; [exact C|]. split; [exact LK|]. split.
  - intros x b L. eapply unsplit_tags; [|eapply X; eauto]. intros j t I Lj. rewrite H; [exact Lj|]. exists j. split; [eapply target_known; eauto|apply spread_refl].
  - intros x I w F N. destruct (FB x I w F N) as (A & B). split; [exact A|]. rewrite H; [exact B|]. exists x. split; [exact I|]. exists w. auto.
Qed.
Lemma split_functions_ok f2t rt : (forall f, In f (map fst f2t) -> ~ In f ["PUSH [tag]"; "JUMP"; "JUMPI"; "functionReturn"; "PhiFunction"]) ->
  forall fs acc tags, NoDup (map fst fs) -> good_tags tags -> (forall nf, In nf fs -> ready (map fst f2t) (rt (fst nf)) (blocks_of nf) tags) ->
  (forall nf nf' x y, In nf fs -> In nf' fs -> In x (ids (blocks_of nf)) -> In y (ids (blocks_of nf')) -> (fst nf = fst nf' /\ x = y) \/ apart x y) ->
  exists fs2 tags', for_each (fun st nf =>
      do r <- modify_block_list_split f2t (fn_blocks (snd nf)) (snd st);
      Ok (fst st ++ [(fst nf, {| fn_args := fn_args (snd nf); fn_blocks := fst r |})], snd r)) fs (acc, tags) = Ok (acc ++ fs2, tags')
    /\ good_tags tags' /\ (forall k, ~ below (all_ids fs) k -> lookup k tags' = lookup k tags)
    /\ Forall2 (fun nf nf2 => fst nf2 = fst nf /\ fn_args (snd nf2) = fn_args (snd nf) /\ split_from f2t (rt (fst nf)) tags (blocks_of nf) tags' (blocks_of nf2)) fs fs2.
Proof.
  intros RS. induction fs as [|nf fs IH]; intros acc tags ND G RD AP.
  - exists [], tags. cbn [for_each]. rewrite app_nil_r. split; [reflexivity|]. split; [exact G|]. split; [reflexivity|constructor].
  - cbn [map fst] in ND. inversion ND as [|? ? N1 N2]; subst. destruct (RD nf (or_introl eq_refl)) as (C & LK & X & FB).
    cbn [for_each fst snd]. change (fn_blocks (snd nf)) with (blocks_of nf).
    destruct (split_list f2t (rt (fst nf)) RS (blocks_of nf) tags G C LK X) as (g1 & tags1 & R & G1 & W1 & AL & SK & FR & BE); auto.
    { intros x y Ix Iy NE. destruct (AP nf nf x y (or_introl eq_refl) (or_introl eq_refl) Ix Iy) as [(_ & ?)|]; [contradiction|assumption]. }
    rewrite R. cbn [bind fst snd].
    assert (DJ : forall nf' k, In nf' fs -> below (ids (blocks_of nf')) k -> ~ below (ids (blocks_of nf)) k).
    { intros nf' k I (y & Iy & Sy) (x & Ix & Sx). destruct (AP nf nf' x y (or_introl eq_refl) (or_intror I) Ix Iy) as [(Q & _)|A]; [|exact (A k Sx Sy)]. apply N1. rewrite Q. now apply in_map. }
    destruct (IH (acc ++ [(fst nf, {| fn_args := fn_args (snd nf); fn_blocks := g1 |})]) tags1 N2 G1) as (fs2 & tags' & R' & G' & FR' & F2).
    + intros nf' I. apply (ready_frame _ _ _ tags); [|apply RD; now right]. intros k B. apply FR. exact (DJ nf' k I B).
    + intros a b x y Ia Ib. apply AP; now right.
    + eexists (_ :: fs2), tags'. split; [etransitivity; [exact R'|rewrite <- app_assoc; reflexivity]|]. split; [exact G'|]. split.
      * intros k N. rewrite FR', FR; [reflexivity| |]; intros (x & Ix & Sx); apply N; exists x; (split; [|exact Sx]); cbn [all_ids flat_map]; apply in_app_iff; [now left|now right].
      * constructor.
        { split; [reflexivity|]. split; [reflexivity|]. apply (split_from_frame f2t _ tags _ tags1).
          - intros k B. apply FR'. intros (y & Iy & Sy). apply all_ids_In in Iy as (nf' & I' & Iy). apply (DJ nf' k I'); [now exists y|exact B].
          - split; auto. }
        { clear -F2 FR DJ RD. revert F2 DJ RD. generalize fs2. clear fs2. induction fs as [|a fs IH]; intros fs2 F2 DJ RD; inversion F2 as [|? b ? l (A & B & [W AL S BE]) F]; subst; constructor.
          - split; [exact A|]. split; [exact B|]. split; auto. intros s t S0 L0. apply (S s t S0). rewrite FR; [exact L0|].
            destruct (in_dec string_dec s (ids (blocks_of a))) as [I|NI].
            + apply (DJ a); [now left|]. exists s. split; [exact I|apply spread_refl].
            + elim NI. destruct (RD a (or_intror (or_introl eq_refl))) as (Ca & _). destruct (c_start _ Ca) as (s2 & Q & I). rewrite S0 in Q. injection Q as <-. exact I.
          - apply IH; [exact F| |].
            + intros; eapply DJ; eauto. now right.
            + intros z [<-|Iz]; apply RD; [now left|right; now right]. }
Qed.

Lemma Forall2_lookup {A B} (R : string * A -> string * B -> Prop) fs fs' : (forall a b, R a b -> fst b = fst a) -> Forall2 R fs fs' ->
  map fst fs' = map fst fs /\ (forall f k, lookup f fs = Some k -> exists k', lookup f fs' = Some k' /\ R (f, k) (f, k'))
  /\ (forall f k', lookup f fs' = Some k' -> exists k, lookup f fs = Some k /\ R (f, k) (f, k')).
Proof.
  intros H F. induction F as [|[f k] [f' k'] fs fs' HR F IH].
  - split; [reflexivity|]. split; discriminate.
  - pose proof (H _ _ HR) as Q. cbn [fst] in Q. subst f'. destruct IH as (M & L & L'). split; [cbn [map fst]; now rewrite M|]. split; intros g q; cbn [lookup]; destruct (String.eqb_spec f g) as [->|]; auto.
    + intros Q. injection Q as <-. eauto.
    + intros Q. injection Q as <-. eauto.
Qed.
Lemma Forall2_In_r {A B} (R : A -> B -> Prop) l l' b : Forall2 R l l' -> In b l' -> exists a, In a l /\ R a b.
Proof. induction 1 as [|x y l l' HR F IH]; [intros []|]. intros [<-|I]; [exists x; split; [now left|exact HR]|]. destruct (IH I) as (a & Ia & Ra). exists a. split; [now right|exact Ra]. Qed.
Lemma dict_In {A} f (k : A) d : NoDup (map fst d) -> In (f, k) d -> lookup f d = Some k.
Proof.
  induction d as [|[f' k'] d IH]; [intros _ []|]. cbn [map fst]. intros N [Q|I]; inversion N as [|? ? N1 N2]; subst; cbn [lookup].
  - injection Q as -> ->. now rewrite String.eqb_refl.
  - destruct (String.eqb_spec f' f) as [->|]; [elim N1; exact (in_map fst _ _ I)|auto].
Qed.

Lemma names_apart ob : object_ok ob -> forall c1 c2 x y, block_name ob c1 x -> block_name ob c2 y -> (c1 = c2 /\ x = y) \/ apart x y.
Proof.
  intros H c1 c2 x y B1 B2. destruct (string_dec x y) as [->|NE].
  - destruct (oo_names ob H c1 c2 y y "" B1 B2 fs_nil) as (_ & ->); [now rewrite str_app_nil|]. left. auto.
  - right. intros k (w & F & ->) (v & V & Q). apply prefix_cases in Q as [(e & -> & ->)|(e & -> & ->)].
    + apply fs_app in V as (V & _). destruct (oo_names ob H c2 c1 y (y ++ e)%string e B2 B1 V eq_refl). congruence.
    + apply fs_app in F as (F & _). destruct (oo_names ob H c1 c2 x (x ++ e)%string e B1 B2 F eq_refl). congruence.
Qed.

Lemma placed_of f2t ret ob tags b : map fst f2t = map fst (ob_functions ob) -> exits (map fst f2t) ret tags b -> settled f2t tags b ->
  (forall f k, lookup f (ob_functions ob) = Some k -> exists s t, cl_start (fn_blocks k) = Some s /\ lookup s tags = Some t /\ lookup f f2t = Some t) ->
  placed ob tags ret b.
Proof.
  intros KF [A B C D P XS JL] [SS SC SE] FT.
  assert (EW : forall pre op ins outs, In (cb_type b) ["unconditional"; "conditional"; "FunctionReturn"] -> cb_instrs b = pre ++ [{| li_op := op; li_ins := ins; li_outs := outs; li_lits := None |}] -> ends_with b op ins outs).
  { intros pre op ins outs T I. destruct (SS T) as (p & i & Q & S). rewrite I in Q. apply app_inj_tail in Q as (-> & <-). exists p. auto. }
  split; [| | | |exact P| |apply JL|apply JL|exact D].
  - intros T. destruct (A T) as (pre & j & t & J & F & L & I). exists j, t. split; [exact J|]. split; [exact F|]. split; [exact L|]. split.
    + unfold pushes. rewrite I. apply in_app_iff. right. now left.
    + apply (EW (pre ++ [push_tag t])); [rewrite T; cbn; tauto|]. rewrite I, <- app_assoc. reflexivity.
  - intros T. destruct (B T) as (pre & j & f & c & t & J & F & Co & L & I). exists j, f, c, t. split; [exact J|]. split; [exact F|]. split; [exact Co|]. split; [exact L|]. split.
    + unfold pushes. rewrite I. apply in_app_iff. right. now left.
    + apply (EW (pre ++ [push_tag t])); [rewrite T; cbn; tauto|]. rewrite I, <- app_assoc. reflexivity.
  - intros T. destruct (C T) as (_ & pre & r & vs & R & NI & I). exists r, vs. split; [exact R|]. split; [exact NI|]. apply (EW pre); [rewrite T; cbn; tauto|exact I].
  - intros pre i post k I LK. destruct (FT _ _ LK) as (s & t & S & L & F). destruct (SC pre i post t I F) as (-> & SP & args & back & NV & PU & IN & M). split; [reflexivity|]. split; [exact SP|].
    exists s, t, args, back. repeat split; auto.
  - rewrite <- KF. destruct (rev (cb_instrs b)) as [|i l] eqn:RV.
    + destruct (cb_split b) as [i|] eqn:SB; [|reflexivity]. destruct (XS i eq_refl) as (_ & pre & Q). rewrite Q, rev_app_distr in RV. discriminate.
    + assert (Q : cb_instrs b = rev l ++ [i]) by (rewrite <- (rev_involutive (cb_instrs b)), RV; reflexivity). destruct (mem (li_op i) (leaving ++ map fst f2t)) eqn:MM.
      * apply mem_In in MM. exact (SE _ _ Q MM).
      * destruct (cb_split b) as [j|] eqn:SB; [|reflexivity]. destruct (XS j eq_refl) as (H & pre & Q'). rewrite Q in Q'. apply app_inj_tail in Q' as (_ & <-). apply mem_false in MM. contradiction.
Qed.

Lemma insert_and_split_changes : forall ob, object_ok ob ->
  exists ob' tags, insert_and_split ob = Ok (ob', tags) /\ distinct_tags tags
    /\ map fst (ob_functions ob') = map fst (ob_functions ob)
    /\ (forall f k, lookup f (ob_functions ob) = Some k -> exists k', lookup f (ob_functions ob') = Some k'
          /\ fn_args k' = match return_name ob (Some f) with Some r => r :: fn_args k | None => fn_args k end)
    /\ (forall c g, component ob c g -> exists g', component ob' c g' /\ consistent g'
          /\ changed (before (map fst (ob_functions ob)) (return_name ob c)) g g'
          /\ forall x b, lookup x (cl_blocks g') = Some b -> placed ob' tags (return_name ob c) b).
Proof.
  intros ob H. set (fns := map fst (ob_functions ob)) in *. unfold insert_and_split, insert_jumps_object.
  assert (PLC : forall c g, component ob c g -> plain_list fns (return_name ob c) g).
  { intros c g K. split; [eapply oo_consistent; eauto|]. split; [intros x b L; eapply oo_links; eauto|]. intros x b L. split; [eapply oo_exits; eauto|]. split; [eapply oo_phis; eauto|]. split; [intros i Q; eapply oo_split; eauto|]. split; [|split].
    - assert (NP : forall i, In i (cb_instrs b) -> li_op i <> "PUSH [tag]") by (intros i Ii Q; apply (proj1 (oo_plain ob H c g x b i K L Ii)); rewrite Q; now left).
      split; [split|].
      + intros i Ii. split; [|intros Q; elim (NP i (removelast_In _ _ Ii) Q)]. intros N. destruct (snoc_cases (cb_instrs b)) as [Q|(l & z & Q)]; rewrite Q in Ii; [destruct Ii|]. rewrite removelast_last in Ii.
        apply in_split in Ii as (l1 & l2 & ->). rewrite <- app_assoc in Q. cbn [app] in Q. destruct (oo_leaving ob H c g x b l1 i (l2 ++ [z]) K L Q N) as (Z & _). destruct l2; discriminate.
      + intros pre i Q. assert (Ii : In i (cb_instrs b)) by (rewrite Q; apply in_app_iff; right; now left). split; [now apply NP|]. split.
        { intros F. destruct (oo_leaving ob H c g x b pre i [] K L Q) as (_ & _ & Z); [rewrite F; cbn; tauto|auto]. }
        split; intros F; elim (proj1 (oo_plain ob H c g x b i K L Ii)); rewrite F; cbn; tauto.
      + intros T i Ii. split; [|intros Q; elim (NP i Ii Q)]. intros N. apply in_split in Ii as (l1 & l2 & Q). destruct (oo_leaving ob H c g x b l1 i l2 K L Q N) as (_ & Z & _). contradiction.
    - intros i Ii Fi. exact (proj1 (proj2 (oo_plain ob H c g x b i K L Ii)) Fi).
    - intros pre vs r Q RN. assert (Ii : In {| li_op := "functionReturn"; li_ins := vs; li_outs := []; li_lits := None |} (cb_instrs b)) by (rewrite Q; apply in_app_iff; right; now left).
      exact (proj2 (proj2 (oo_plain ob H c g x b _ K L Ii)) eq_refl r RN). }
  assert (CF : forall nf, In nf (ob_functions ob) -> component ob (Some (fst nf)) (blocks_of nf)).
  { intros [f k] I. exists k. split; [|reflexivity]. apply dict_In; [apply H|exact I]. }
  (* insertion *)
  destruct (PLC None (ob_main ob) eq_refl) as (CM & LM & XM).
  destruct (insert_list fns None (oo_reserved ob H) (ob_main ob) [] good_nil CM LM XM) as (m1 & t1 & R1 & G1 & M1 & W1 & C1 & LK1 & A1 & K1 & S1 & RT1 & X1).
  { intros N. elim N. apply H. }
  rewrite R1. cbn [bind fst snd]. unfold insert_jumps_functions.
  destruct (insert_functions fns (oo_reserved ob H) (ob_functions ob) [] t1 G1) as (fs1 & t2 & R2 & G2 & M2 & W2 & F2).
  { intros [f k] I. pose proof (PLC _ _ (CF _ I)) as Q. cbn [fst] in Q. unfold return_name in Q. rewrite (dict_In f k _ (oo_functions ob H) I) in Q. exact Q. }
  rewrite R2. cbn [bind fst snd app]. unfold split_object. cbn [fst snd ob_main ob_functions].
  destruct (Forall2_lookup _ _ _ (in_name fns t2) F2) as (NM1 & FW1 & BW1).
  assert (ND1 : NoDup (map fst fs1)) by (rewrite NM1; apply H).
  (* tags of the functions *)
  destruct (function_tags_ok fs1 [] t2 ND1) as (f2t & RF & KF & LF).
  { intros nf _ []. }
  { intros nf I. destruct (Forall2_In_r _ _ _ _ F2 I) as (nf0 & _ & IN). apply (in_start _ _ _ _ IN). }
  unfold function_tags. cbn [app] in RF. match goal with |- context [for_each ?f fs1 ([], t2)] => replace (for_each f fs1 ([], t2)) with (Ok (f2t, t2) : result (tag_dict * tag_dict)) by (symmetry; exact RF) end. cbn [bind fst snd].
  assert (KE : map fst f2t = fns) by (rewrite KF; exact NM1).
  assert (RS : forall f, In f (map fst f2t) -> ~ In f ["PUSH [tag]"; "JUMP"; "JUMPI"; "functionReturn"; "PhiFunction"]) by (rewrite KE; apply H).
  (* all names *)
  set (rt := fun f => return_name ob (Some f)).
  assert (RTE : forall nf, In nf (ob_functions ob) -> rt (fst nf) = return_of (fst nf) (blocks_of nf)).
  { intros [f k] I. unfold rt, return_name. cbn [fst]. rewrite (dict_In f k _ (oo_functions ob H) I). reflexivity. }
  assert (BM : forall x, In x (ids m1) -> block_name ob None x) by (intros x I; rewrite K1 in I; exists (ob_main ob); split; [reflexivity|exact I]).
  assert (BF : forall nf1 x, In nf1 fs1 -> In x (ids (blocks_of nf1)) -> block_name ob (Some (fst nf1)) x).
  { intros nf1 x I Ix. destruct (Forall2_In_r _ _ _ _ F2 I) as (nf0 & I0 & IN). rewrite (in_name _ _ _ _ IN). exists (blocks_of nf0). split; [apply CF, I0|]. rewrite <- (in_ids _ _ _ _ IN). exact Ix. }
  assert (KT : forall k, lookup k t2 <> None -> exists c, block_name ob c k).
  { intros k N. destruct (in_dec string_dec k (all_ids (ob_functions ob))) as [I|NI].
    - apply all_ids_In in I as (nf & I & Ik). exists (Some (fst nf)). exists (blocks_of nf). split; [apply CF, I|exact Ik].
    - rewrite W2 in N by exact NI. destruct (in_dec string_dec k (ids (ob_main ob))) as [I|NI']; [exists None, (ob_main ob); split; [reflexivity|exact I]|]. rewrite W1 in N by exact NI'. elim N. reflexivity. }
  assert (FRE : forall c g x, (forall y, In y (ids g) -> block_name ob c y) -> In x (ids g) -> free_below x (ids g) t2).
  { intros c g x BG I w F N. assert (SW : spread x (x ++ w)%string) by (exists w; auto). split.
    - intros Iw. destruct (names_apart ob H c c x _ (BG x I) (BG _ Iw)) as [(_ & Q)|A]; [symmetry in Q; revert Q; apply str_app_ne, N|]. exact (A _ SW (spread_refl _)).
    - destruct (lookup (x ++ w)%string t2) as [t|] eqn:L; [|reflexivity]. destruct (KT (x ++ w)%string) as (c' & B'); [congruence|].
      destruct (names_apart ob H c c' x _ (BG x I) B') as [(_ & Q)|A]; [symmetry in Q; elim (str_app_ne x w N Q)|]. elim (A _ SW (spread_refl _)). }
  (* splitting the main code *)
  destruct (split_list f2t None RS m1 t2 G2 C1 LK1) as (m2 & t3 & R3 & G3 & W3 & A3 & SK3 & FR3 & BE3).
  { intros x b L. rewrite KE. eapply unsplit_tags; [|eapply X1; eauto]. intros j t _ Lj. now apply M2. }
  { intros x y Ix Iy NE. destruct (names_apart ob H None None x y (BM x Ix) (BM y Iy)) as [(_ & Q)|A]; [contradiction|exact A]. }
  { intros x I. apply (FRE None m1 x BM I). }
  rewrite R3. cbn [bind fst snd]. unfold split_functions.
  assert (DM : forall k, below (all_ids fs1) k -> ~ below (ids m1) k).
  { intros k (y & Iy & Sy) (x & Ix & Sx). apply all_ids_In in Iy as (nf & I & Iy). destruct (names_apart ob H None (Some (fst nf)) x y (BM x Ix) (BF nf y I Iy)) as [(Q & _)|A]; [discriminate|]. exact (A k Sx Sy). }
  (* splitting the functions *)
  destruct (split_functions_ok f2t rt RS fs1 [] t3 ND1 G3) as (fs2 & t4 & R4 & G4 & FR4 & F4).
  { intros nf1 I. apply (ready_frame _ _ _ t2).
    - intros k (y & Iy & Sy). apply FR3. apply DM. exists y. split; [|exact Sy]. apply all_ids_In. eauto.
    - destruct (Forall2_In_r _ _ _ _ F2 I) as (nf0 & I0 & IN). rewrite (in_name _ _ _ _ IN), (RTE nf0 I0), KE. destruct IN. split; [assumption|]. split; [assumption|]. split; [assumption|].
      intros x Ix. apply (FRE (Some (fst nf1)) (blocks_of nf1) x); [intros y Iy; apply BF; assumption|exact Ix]. }
  { intros a b x y Ia Ib Ix Iy. destruct (names_apart ob H _ _ x y (BF a x Ia Ix) (BF b y Ib Iy)) as [(Q & ->)|A]; [left; split; congruence|right; exact A]. }
  rewrite R4. cbn [bind fst snd app].
  eexists _, t4. split; [reflexivity|]. cbn [ob_functions ob_main].
  assert (NN : forall a b : string * cfun, fst b = fst a /\ fn_args (snd b) = fn_args (snd a) /\ split_from f2t (rt (fst a)) t3 (blocks_of a) t4 (blocks_of b) -> fst b = fst a) by tauto.
  destruct (Forall2_lookup _ _ _ NN F4) as (NM4 & FW4 & BW4).
  assert (FT : forall f k, lookup f fs2 = Some k -> exists s t, cl_start (fn_blocks k) = Some s /\ lookup s t4 = Some t /\ lookup f f2t = Some t).
  { intros f k L. destruct (BW4 f k L) as (k1 & L1 & _ & _ & SF). destruct (LF (f, k1) (lookup_In _ _ _ L1)) as (s & t & S & Ls & Lf). cbn [fst snd blocks_of] in *.
    assert (I1 : In (f, k1) fs1) by exact (lookup_In _ _ _ L1).
    assert (L3 : lookup s t3 = Some t).
    { rewrite FR3; [exact Ls|]. apply DM. exists s. split; [|apply spread_refl]. apply all_ids_In. exists (f, k1). split; [exact I1|].
      destruct (Forall2_In_r _ _ _ _ F2 I1) as (nf0 & I0 & IN). destruct (c_start _ (in_consistent _ _ _ _ IN)) as (s2 & Q & Is). unfold blocks_of in *. cbn [snd] in *. rewrite S in Q. injection Q as <-. exact Is. }
    destruct (sf_start _ _ _ _ _ _ SF s t S L3) as (s' & S' & L'). exists s', t. auto. }
  split; [apply good_distinct, G4|]. split; [rewrite NM4; exact NM1|]. split.
  - intros f k L. destruct (FW1 f k L) as (k1 & L1 & IN). destruct (FW4 f k1 L1) as (k2 & L2 & _ & AR & _). exists k2. split; [exact L2|]. cbn [snd] in AR. rewrite AR.
    pose proof (in_args _ _ _ _ IN) as Q. cbn [fst snd] in Q. rewrite Q. pose proof (RTE (f, k) (lookup_In _ _ _ L)) as QR. cbn [fst] in QR. unfold rt in QR. rewrite QR. destruct (return_of f (blocks_of (f, k))); reflexivity.
  - intros [f|] g K.
    + destruct K as (k & L & <-). destruct (FW1 f k L) as (k1 & L1 & IN). destruct (FW4 f k1 L1) as (k2 & L2 & _ & _ & SF). exists (fn_blocks k2). split; [exists k2; auto|].
      destruct SF as [W AL SK BE]. cbn [fst snd blocks_of] in *. destruct W as (CW & _ & BW). split; [exact CW|]. split.
      * eapply changed_trans; [|rewrite <- KE; exact AL]. pose proof (in_alike _ _ _ _ IN) as Q. rewrite <- (RTE (f, k) (lookup_In _ _ _ L)) in Q. exact Q.
      * intros x b Lb. destruct (BW x b Lb) as (X & S). apply (placed_of f2t); [cbn [ob_functions]; rewrite NM4; exact KF|exact X|apply S; tauto|exact FT].
    + cbn in K. subst g. exists m2. split; [reflexivity|]. assert (W4 : well f2t None m2 t4 (fun _ => False)).
      { eapply well_frame; [|exact W3]. intros k Ik. apply FR4. intros B. exact (DM k B (BE3 k Ik)). }
      destruct W4 as (CW & _ & BW). split; [exact CW|]. split.
      * eapply changed_trans; [exact A1|]. change (map fst (ob_functions ob)) with fns. rewrite <- KE. exact A3.
      * intros x b Lb. destruct (BW x b Lb) as (X & S). apply (placed_of f2t); [cbn [ob_functions]; rewrite NM4; exact KF|exact X|apply S; tauto|exact FT].
Qed.
Lemma plain_before ob c g x b i : object_ok ob -> component ob c g -> lookup x (cl_blocks g) = Some b -> In i (cb_instrs b) ->
  before (map fst (ob_functions ob)) (return_name ob c) (Do i) = [Do i].
Proof.
  intros H K L I. set (fns := map fst (ob_functions ob)). destruct (oo_plain ob H c g x b i K L I) as (P1 & P2 & P3). unfold before.
  replace (mem (li_op i) ["PUSH [tag]"; "JUMP"; "JUMPI"]) with false by (symmetry; apply mem_false; exact P1).
  assert (FI : forall f : string -> bool, (forall v, In v (li_ins i) -> f v = true) -> {| li_op := li_op i; li_ins := filter f (li_ins i); li_outs := li_outs i; li_lits := li_lits i |} = i).
  { intros f Hf. replace (filter f (li_ins i)) with (li_ins i); [destruct i; reflexivity|]. clear -Hf. induction (li_ins i) as [|v l IH]; [reflexivity|]. cbn [filter]. rewrite (Hf v) by now left. f_equal. apply IH. intros; apply Hf; now right. }
  destruct (mem (li_op i) fns) eqn:MF.
  - apply mem_In in MF. rewrite FI; [reflexivity|]. intros v Iv. rewrite (P2 MF v Iv). reflexivity.
  - destruct (String.eqb_spec (li_op i) "functionReturn") as [Q|]; [|reflexivity]. rewrite FI; [reflexivity|]. intros v Iv. destruct (return_name ob c) as [r|] eqn:RN; [|reflexivity].
    destruct (String.eqb_spec v r) as [->|NE]; [elim (P3 Q r eq_refl Iv)|]. destruct (opt_eqb (Some v) (Some r)) eqn:OE; [|reflexivity]. apply opt_eqb_eq in OE. congruence.
Qed.
Theorem jumps_and_calls_placed_partial : forall ob, object_ok ob ->
  exists ob' tags, insert_and_split ob = Ok (ob', tags) /\ distinct_tags tags
    /\ map fst (ob_functions ob') = map fst (ob_functions ob)
    /\ (forall f k, lookup f (ob_functions ob) = Some k -> exists k', lookup f (ob_functions ob') = Some k'
          /\ fn_args k' = match return_name ob (Some f) with Some r => r :: fn_args k | None => fn_args k end)
    /\ (forall c g, component ob c g -> exists g', component ob' c g' /\ consistent g'
          /\ executions_kept (map fst (ob_functions ob)) (return_name ob c) g g'
          /\ forall x b, lookup x (cl_blocks g') = Some b -> placed ob' tags (return_name ob c) b).
Proof.
  intros ob H. destruct (insert_and_split_changes ob H) as (ob' & tags & R & D & N & A & P). exists ob', tags. split; [exact R|]. split; [exact D|]. split; [exact N|]. split; [exact A|].
  intros c g K. destruct (P c g K) as (g' & K' & C' & CH & PL). exists g'. split; [exact K'|]. split; [exact C'|]. split; [|exact PL].
  apply alike_exact; [|reflexivity|apply changed_alike; [apply before_short|exact CH]]. intros x b i L I. exact (plain_before ob c g x b i H K L I).
Qed.
Print Assumptions jumps_and_calls_placed_partial.
