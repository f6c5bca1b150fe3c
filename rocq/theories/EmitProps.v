(** The emitted code contains every reachable block once, with fall-throughs adjacent. *)
From Verif Require Import Base LexicalProofs SymExecModel AsmModel UtilModel LiveModel CfgModel EmitModel EmitSpec.
Open Scope string_scope. Open Scope list_scope.

Definition positions (L : list (string * list asm)) : list string := flat_map (fun p => repeat (fst p) (length (snd p))) L.
Definition codes (L : list (string * list asm)) : list asm := concat (map snd L).

Lemma positions_app l1 l2 : positions (l1 ++ l2) = positions l1 ++ positions l2.
Proof. apply flat_map_app. Qed.
Lemma codes_app l1 l2 : codes (l1 ++ l2) = codes l1 ++ codes l2.
Proof. unfold codes. rewrite map_app. apply concat_app. Qed.
Lemma positions_length L : length (positions L) = length (codes L).
Proof.
  induction L as [|[b c] L IH]; [reflexivity|]. change (positions ((b, c) :: L)) with (repeat b (length c) ++ positions L).
  change (codes ((b, c) :: L)) with (c ++ codes L). rewrite !app_length, repeat_length, IH. reflexivity.
Qed.
Lemma positions_keys L x : In x (positions L) -> In x (map fst L).
Proof.
  unfold positions. rewrite in_flat_map. intros [p [Hp Hx]]. apply repeat_spec in Hx. subst x. apply in_map. exact Hp.
Qed.
Lemma index_of_None x l : ~ In x l -> index_of x l = None.
Proof.
  induction l as [|y l IH]; [reflexivity|]. intros N. cbn. destruct (String.eqb_spec y x) as [->|Ne]; [destruct N; left; reflexivity|].
  rewrite IH; [reflexivity|]. intros H. apply N. right. exact H.
Qed.
Lemma index_of_after x l1 l2 : ~ In x l1 -> index_of x (l1 ++ l2) = option_map (fun n => length l1 + n) (index_of x l2).
Proof.
  induction l1 as [|y l1 IH]; intros N; cbn.
  - destruct (index_of x l2); reflexivity.
  - destruct (String.eqb_spec y x) as [->|Ne]; [destruct N; left; reflexivity|]. rewrite IH by (intros H; apply N; right; exact H).
    destruct (index_of x l2); reflexivity.
Qed.
Lemma index_positions f cf l1 l2 : NoDup (map fst (l1 ++ (f, cf) :: l2)) -> cf <> [] ->
  index_of f (positions (l1 ++ (f, cf) :: l2)) = Some (length (codes l1)).
Proof.
  intros ND N. rewrite map_app in ND. apply NoDup_remove_2 in ND. rewrite positions_app, index_of_after.
  - destruct cf as [|c cf]; [destruct (N eq_refl)|]. cbn. rewrite String.eqb_refl. cbn. rewrite positions_length. f_equal. lia.
  - intros H. apply ND. apply in_or_app. left. apply positions_keys. exact H.
Qed.
Lemma firstn_app_exact {A} (l1 l2 : list A) n : n = length l1 -> firstn n (l1 ++ l2) = l1.
Proof. intros ->. rewrite firstn_app, firstn_all, Nat.sub_diag. cbn. apply app_nil_r. Qed.
Lemma skipn_app_exact {A} (l1 l2 : list A) n : n = length l1 -> skipn n (l1 ++ l2) = l2.
Proof. intros ->. rewrite skipn_app, skipn_all, Nat.sub_diag. reflexivity. Qed.
Lemma mem_In x l : mem x l = true <-> In x l.
Proof.
  unfold mem. rewrite existsb_exists. split.
  - intros [y [H E]]. apply String.eqb_eq in E. subst y. exact H.
  - intros H. exists x. split; [exact H|apply String.eqb_refl].
Qed.
Lemma lookup_In_key {A} x (d : list (string * A)) : lookup x d <> None -> In x (map fst d).
Proof.
  induction d as [|[k v] d IH]; cbn; [intros N; destruct (N eq_refl)|]. destruct (String.eqb_spec k x) as [->|Ne]; intros H; [left; reflexivity|right; apply IH; exact H].
Qed.
Lemma mem_lookup {A} x (d : list (string * A)) : lookup x d <> None -> mem x (map fst d) = true.
Proof. intros H. apply mem_In, lookup_In_key, H. Qed.

Section Emission.
Context (fns : list string) (tags : list (string * Z)) (blocks : list (string * eblock)) (start : string).
Context (WF : well_formed fns tags blocks start).
Notation reach := (reachable blocks start).
Notation code_of := (block_code fns tags blocks).

Lemma block_code_fun b c1 c2 : code_of b c1 -> code_of b c2 -> c1 = c2.
Proof.
  intros (blk & ids & last & H1 & H2 & H3 & ->) (blk' & ids' & last' & H1' & H2' & H3' & ->).
  rewrite H1 in H1'. injection H1' as <-. rewrite H2 in H2'. injection H2' as <-.
  destruct (eb_split blk); [rewrite H3 in H3'; injection H3' as <-; reflexivity|subst; reflexivity].
Qed.
Definition stop_of (blk : eblock) : list asm := if String.eqb (eb_type blk) "mainExit" then [asm_from_op_info "STOP" None] else [].
Lemma block_asm_ok b blk code : reach b -> lookup b blocks = Some blk -> code_of b code ->
  exists c0, block_asm fns blocks blk = Ok (blk, c0) /\ code = tag_header tags b ++ c0 ++ stop_of blk.
Proof.
  intros R Lb (blk' & ids & last & L' & Ids & Last & E). rewrite Lb in L'. injection L' as <-.
  exists (ids ++ last). split; [|rewrite E, <- app_assoc; unfold tag_header, stop_of; destruct (lookup b tags); reflexivity].
  unfold block_asm. destruct (String.eqb_spec (eb_type blk) "sub_block") as [T|T].
  - destruct (wf_kind _ _ _ _ WF b blk R Lb) as [[K _]|[[K _]|[[K _]|[[_ [_ [s [Es Ms]]]]|[[K _]|[K|K]]]]]]; try (rewrite K in T; discriminate).
    assert (G : forall fuel, generate_asm_split_blocks fuel fns blocks blk [] = Ok (blk, ids ++ last)).
    { intros fuel. destruct fuel; cbn [generate_asm_split_blocks]; rewrite Es; cbn [of_option bind]; rewrite Ids; cbn [bind]; rewrite Es in Last; rewrite Last; cbn [bind];
        rewrite (proj2 (mem_In _ _) Ms); rewrite andb_false_r; reflexivity. }
    apply G.
  - rewrite Ids. cbn [bind].
    assert (EL : match eb_split blk with Some s => asm_for_split_instruction s fns | None => Ok [] end = Ok last) by (destruct (eb_split blk); [exact Last|subst; reflexivity]).
    rewrite EL. cbn [bind]. destruct ids as [|i ids]; [|reflexivity].
    destruct (String.eqb_spec (eb_type blk) "terminal") as [T'|T']; [|reflexivity].
    destruct (wf_kind _ _ _ _ WF b blk R Lb) as [[K _]|[[K _]|[[K _]|[[K _]|[[_ K]|[K|K]]]]]]; try (rewrite K in T'; discriminate).
    destruct (K Ids) as [s [Es Ei]]. rewrite Ei, Es. rewrite Es in Last. rewrite Last. cbn [bind].
    assert (Q : cinstr_eqb s s = true).
    { assert (LL : forall l, list_eqb l l = true) by (induction l as [|x l IH]; [reflexivity|]; cbn; rewrite String.eqb_refl; exact IH).
      unfold cinstr_eqb. rewrite !LL, String.eqb_refl. reflexivity. }
    rewrite Q. reflexivity.
Qed.

(** The state after some iterations; [L] is the code so far, block by block. *)
Record inv (st : estate) (L : list (string * list asm)) : Prop := {
  i_asm : e_asm st = codes L;
  i_pos : e_pos st = positions L;
  i_vis : forall x, In x (e_visited st) <-> In x (map fst L);
  i_code : Forall (fun p => code_of (fst p) (snd p)) L;
  i_nodup : NoDup (map fst L);
  i_first : match L with [] => e_pending st = [start] | p :: _ => fst p = start end;
  i_reach : forall x, In x (map fst L) \/ In x (e_pending st) -> reach x;
  i_path : forall a x, In x (map fst L) \/ In x (e_pending st) -> ~ In a (map fst L) -> x <> a -> reachable_avoiding blocks start a x;
  i_pend : NoDup (e_pending st) /\ forall x, In x (e_pending st) -> ~ In x (map fst L);
  i_linger : forall x, In x (tl (e_pending st)) -> exists a blk, In a (map fst L) /\ lookup a blocks = Some blk /\
    eb_type blk = "conditional" /\ eb_jump_to blk = Some x;
  i_closed : forall b c, In b (map fst L) -> goes blocks b c -> In c (map fst L) \/ In c (e_pending st);
  i_adj : forall b c, In b (map fst L) -> falls blocks b c ->
    adjacent b c (map fst L) \/ (exists l rest, map fst L = l ++ [b] /\ e_pending st = c :: rest)
}.

Lemma code_exists b : reach b -> exists blk code, lookup b blocks = Some blk /\ code_of b code.
Proof. intros R. destruct (wf_code _ _ _ _ WF b R) as [code H]. pose proof H as (blk & _ & _ & E & _). exists blk, code. split; [exact E|exact H]. Qed.

(** An element of [pending] below the top has no edge from a block not yet placed. *)
Lemma linger_no_edge st L x p : inv st L -> In x (tl (e_pending st)) -> reach p -> ~ In p (map fst L) -> ~ goes blocks p x.
Proof.
  intros I H R N G. destruct (i_linger _ _ I x H) as (a & blk & Ha & La & T & J).
  destruct (wf_jumpi_target _ _ _ _ WF a p blk x (i_reach _ _ I a (or_introl Ha)) R La T J G) as [-> _]. exact (N Ha).
Qed.

Lemma adjacent_app_r b c l l' : adjacent b c l -> adjacent b c (l ++ l').
Proof. intros (l1 & l2 & ->). exists l1, (l2 ++ l'). rewrite <- app_assoc. reflexivity. Qed.
Lemma adjacent_insert b c p f l1 l2 : adjacent b c (l1 ++ f :: l2) -> c <> f -> adjacent b c (l1 ++ p :: f :: l2).
Proof.
  intros (m1 & m2 & E) N. revert m1 E. induction l1 as [|x l1 IH]; intros m1 E.
  - cbn in E. destruct m1 as [|y m1]; cbn in E.
    + injection E as -> ->. exists [p], m2. reflexivity.
    + injection E as -> ->. exists (p :: y :: m1), m2. reflexivity.
  - destruct m1 as [|y m1]; cbn in E; injection E as -> E'.
    + destruct l1 as [|z l1]; cbn in E'; injection E' as -> E'; [destruct (N eq_refl)|]. exists [], (l1 ++ p :: f :: l2). reflexivity.
    + destruct (IH m1 E') as (n1 & n2 & E''). exists (y :: n1), n2. cbn. rewrite E''. reflexivity.
Qed.

(** What an iteration that places [p] between [l1] and [l2] and pushes [news] keeps. *)
Lemma step_inv st L p rest code l1 l2 news st' :
  inv st L -> e_pending st = p :: rest -> code_of p code -> L = l1 ++ l2 ->
  e_pending st' = news ++ rest -> (forall x, In x (e_visited st') <-> In x (e_visited st) \/ x = p) ->
  e_asm st' = codes (l1 ++ (p, code) :: l2) -> e_pos st' = positions (l1 ++ (p, code) :: l2) ->
  (l1 = [] -> L = []) ->
  NoDup news -> (forall x, In x news -> goes blocks p x /\ x <> p /\ ~ In x (map fst L)) ->
  (forall x, In x (tl news) -> exists blk, lookup p blocks = Some blk /\ eb_type blk = "conditional" /\ eb_jump_to blk = Some x) ->
  (forall c, goes blocks p c -> In c (map fst L) \/ c = p \/ In c news) ->
  (forall b c, In b (map fst L) -> falls blocks b c -> adjacent b c (map fst (l1 ++ (p, code) :: l2))) ->
  (forall c, falls blocks p c -> adjacent p c (map fst (l1 ++ (p, code) :: l2)) \/ (l2 = [] /\ exists news', news = c :: news')) ->
  inv st' (l1 ++ (p, code) :: l2).
Proof.
  intros I Pd Cp EL Pd' Vis Asm Pos First NDn News Tl Closed Adj AdjP.
  assert (Rp : reach p) by (apply (i_reach _ _ I); right; rewrite Pd; left; reflexivity).
  assert (Np : ~ In p (map fst L)) by (apply (proj2 (i_pend _ _ I)); rewrite Pd; left; reflexivity).
  assert (Keys : forall x, In x (map fst (l1 ++ (p, code) :: l2)) <-> In x (map fst L) \/ x = p).
  { intros x. subst L. rewrite !map_app, !in_app_iff. cbn. split; [intros [H|[H|H]]|intros [[H|H]|H]]; auto. }
  assert (Rest : forall x, In x rest -> In x (tl (e_pending st))) by (rewrite Pd; auto).
  assert (NR : forall x, In x news -> ~ In x rest).
  { intros x Hn Hr. apply (linger_no_edge st L x p I (Rest x Hr) Rp Np). apply (News x Hn). }
  constructor.
  - exact Asm.
  - exact Pos.
  - intros x. rewrite Vis, Keys, (i_vis _ _ I). reflexivity.
  - pose proof (i_code _ _ I) as C. subst L. apply Forall_app in C. destruct C as [C1 C2]. apply Forall_app. split; [exact C1|]. constructor; [exact Cp|exact C2].
  - pose proof (i_nodup _ _ I) as ND. subst L. rewrite map_app in *. cbn [map fst]. apply NoDup_Add with (a := p) (l := map fst l1 ++ map fst l2); [apply Add_app|]. split; assumption.
  - pose proof (i_first _ _ I) as F. destruct l1 as [|q l1].
    + pose proof (First eq_refl) as E. rewrite E in F. cbn. rewrite Pd in F. injection F as ->. reflexivity.
    + subst L. cbn in *. exact F.
  - intros x [H|H]; [apply Keys in H; destruct H as [H| ->]; [apply (i_reach _ _ I); left; exact H|exact Rp]|].
    rewrite Pd' in H. apply in_app_or in H. destruct H as [H|H]; [apply Reach_step with p; [exact Rp|apply News, H]|].
    apply (i_reach _ _ I). right. rewrite Pd. right. exact H.
  - intros a x H Na Ne. assert (Na' : ~ In a (map fst L)) by (intros Q; apply Na, Keys; left; exact Q).
    assert (Nap : p <> a) by (intros ->; apply Na, Keys; right; reflexivity).
    assert (Pp : reachable_avoiding blocks start a p) by (apply (i_path _ _ I); [right; rewrite Pd; left; reflexivity|exact Na'|exact Nap]).
    destruct H as [H|H]; [apply Keys in H; destruct H as [H| ->]; [apply (i_path _ _ I); auto|exact Pp]|].
    rewrite Pd' in H. apply in_app_or in H. destruct H as [H|H].
    + apply Avoid_step with p; [exact Pp|apply News, H|exact Ne].
    + apply (i_path _ _ I); [right; rewrite Pd; right; exact H|exact Na'|exact Ne].
  - destruct (i_pend _ _ I) as [ND Dj]. rewrite Pd in ND. inversion ND as [|? ? Npr NDr]; subst. split.
    + rewrite Pd'. clear - NDn NDr NR. induction news as [|x news IH]; [exact NDr|]. inversion NDn as [|? ? N1 N2]; subst. cbn. constructor.
      * intros H. apply in_app_or in H. destruct H as [H|H]; [exact (N1 H)|exact (NR x (or_introl eq_refl) H)].
      * apply IH; [exact N2|]. intros y Hy. apply NR. right. exact Hy.
    + intros x H K. apply Keys in K. rewrite Pd' in H. apply in_app_or in H. destruct H as [H|H].
      * destruct (News x H) as (_ & N1 & N2). destruct K as [K|K]; [exact (N2 K)|exact (N1 K)].
      * destruct K as [K| ->]; [|exact (Npr H)]. apply (Dj x); [rewrite Pd; right; exact H|exact K].
  - intros x H. rewrite Pd' in H. assert (H' : In x (tl news) \/ In x rest).
    { destruct news as [|y news]; cbn in H; [right; destruct rest; [destruct H|right; exact H]|apply in_app_or in H; exact H]. }
    destruct H' as [H'|H'].
    + destruct (Tl x H') as (blk & E1 & E2 & E3). exists p, blk. split; [apply Keys; right; reflexivity|auto].
    + destruct (i_linger _ _ I x (Rest x H')) as (a & blk & E0 & E1 & E2 & E3). exists a, blk. split; [apply Keys; left; exact E0|auto].
  - intros b c Hb G. apply Keys in Hb. rewrite Pd'. destruct Hb as [Hb| ->].
    + destruct (i_closed _ _ I b c Hb G) as [H|H]; [left; apply Keys; left; exact H|]. rewrite Pd in H. destruct H as [<-|H]; [left; apply Keys; right; reflexivity|].
      right. apply in_or_app. right. exact H.
    + destruct (Closed c G) as [H|[->|H]]; [left; apply Keys; left; exact H|left; apply Keys; right; reflexivity|right; apply in_or_app; left; exact H].
  - intros b c Hb F. apply Keys in Hb. destruct Hb as [Hb| ->]; [left; apply Adj; assumption|].
    destruct (AdjP c F) as [H|[-> [news' ->]]]; [left; exact H|]. right. rewrite Pd'. exists (map fst l1), (news' ++ rest). split; [rewrite map_app; reflexivity|reflexivity].
Qed.

Lemma adj_append st L p rest code : inv st L -> e_pending st = p :: rest ->
  forall b c, In b (map fst L) -> falls blocks b c -> adjacent b c (map fst (L ++ [(p, code)])).
Proof.
  intros I Pd b c Hb F. rewrite map_app. destruct (i_adj _ _ I b c Hb F) as [H|(l & r & El & Er)]; [apply adjacent_app_r; exact H|].
  rewrite Pd in Er. injection Er as <- <-. rewrite El. exists l, []. rewrite <- app_assoc. reflexivity.
Qed.

Lemma append_step st L p rest code news st' : inv st L -> e_pending st = p :: rest -> code_of p code ->
  (forall c, ~ falls blocks p c) ->
  e_pending st' = news ++ rest -> e_visited st' = e_visited st ++ [p] -> e_pos st' = e_pos st ++ repeat p (length code) -> e_asm st' = e_asm st ++ code ->
  (news = [] \/ exists j, news = [j] /\ goes blocks p j /\ j <> p /\ ~ In j (map fst L)) ->
  (forall c, goes blocks p c -> In c (map fst L) \/ c = p \/ In c news) ->
  inv st' (L ++ [(p, code)]).
Proof.
  intros I Pd Cp NF Pd' Vis Pos Asm News Closed.
  apply (step_inv st L p rest code L [] news); try assumption.
  - symmetry. apply app_nil_r.
  - intros x. rewrite Vis, in_app_iff. cbn. split; intros [H|H]; auto. destruct H as [H|[]]; auto.
  - rewrite Asm, (i_asm _ _ I), codes_app. unfold codes at 3. cbn. rewrite app_nil_r. reflexivity.
  - rewrite Pos, (i_pos _ _ I), positions_app. unfold positions at 3. cbn. rewrite app_nil_r. reflexivity.
  - auto.
  - destruct News as [->|(j & -> & _)]; constructor; [intros []|constructor].
  - intros x H. destruct News as [->|(j & -> & J)]; [destruct H|]. destruct H as [<-|[]]. exact J.
  - intros x H. destruct News as [->|(j & -> & J)]; destruct H.
  - apply adj_append with (st := st) (rest := rest); assumption.
  - intros c F. destruct (NF c F).
Qed.

Lemma falls_step st L p blk rest code f js st1 :
  inv st L -> e_pending st = p :: rest -> code_of p code -> lookup p blocks = Some blk -> falls blocks p f ->
  (js = [] \/ exists j, js = [j] /\ goes blocks p j /\ j <> p /\ ~ In j (map fst L) /\ j <> f /\ eb_type blk = "conditional" /\ eb_jump_to blk = Some j) ->
  (forall c, falls blocks p c -> c = f) ->
  (forall c, goes blocks p c -> c = f \/ In c js \/ In c (map fst L) \/ c = p) ->
  e_pending st1 = js ++ rest -> e_visited st1 = e_visited st ++ [p] -> e_pos st1 = e_pos st -> e_asm st1 = e_asm st ->
  exists st' L', locate_fallsto_block p f code st1 = Ok st' /\ inv st' L' /\ length L' = S (length L).
Proof.
  intros I Pd Cp Lp F Js Ff Closed Pd1 Vis1 Pos1 Asm1.
  assert (Rp : reach p) by (apply (i_reach _ _ I); right; rewrite Pd; left; reflexivity).
  assert (Np : ~ In p (map fst L)) by (apply (proj2 (i_pend _ _ I)); rewrite Pd; left; reflexivity).
  assert (Nfp : f <> p) by (intros ->; exact (wf_fall_itself _ _ _ _ WF p Rp F)).
  assert (Vis : forall x, In x (e_visited st1) <-> In x (e_visited st) \/ x = p).
  { intros x. rewrite Vis1, in_app_iff. cbn. split; intros [H|H]; auto. destruct H as [H|[]]; auto. }
  unfold locate_fallsto_block. rewrite Pos1, (i_pos _ _ I), Asm1, (i_asm _ _ I).
  destruct (in_dec string_dec f (map fst L)) as [Hf|Hf].
  - (* already placed: insertion *)
    apply in_map_iff in Hf. destruct Hf as [[f' cf] [E Hin]]. cbn in E. subst f'. pose proof Hin as Hin0. apply in_split in Hin. destruct Hin as (l1 & l2 & EL).
    assert (Hf : In f (map fst L)) by (apply in_map_iff; exists (f, cf); auto).
    assert (Cf : code_of f cf) by (apply (proj1 (Forall_forall _ _) (i_code _ _ I) _ Hin0)).
    assert (Ne : cf <> []) by (intros ->; exact (wf_not_empty _ _ _ _ WF p f Rp F Cf)).
    assert (Ix : index_of f (positions L) = Some (length (codes l1))) by (rewrite EL; apply index_positions; [rewrite <- EL; exact (i_nodup _ _ I)|exact Ne]).
    rewrite Ix. rewrite (proj2 (mem_In f (e_visited st1))) by (apply Vis; left; apply (i_vis _ _ I); exact Hf). cbn [py_assert bind].
    eexists. exists (l1 ++ (p, code) :: (f, cf) :: l2). split; [reflexivity|].
    split; [|subst L; rewrite !app_length; cbn; lia].
    apply (step_inv st L p rest code l1 ((f, cf) :: l2) js); try assumption; cbn [e_pending e_visited e_pos e_asm].
    + rewrite EL, codes_app, firstn_app_exact, skipn_app_exact by reflexivity. rewrite !codes_app. reflexivity.
    + rewrite EL, positions_app, firstn_app_exact, skipn_app_exact by (rewrite positions_length; reflexivity). rewrite !positions_app. reflexivity.
    + intros ->. subst L. pose proof (i_first _ _ I) as Fs. cbn in Fs. subst f. destruct (wf_fall_start _ _ _ _ WF p Rp F).
    + destruct Js as [->|(j & -> & _)]; constructor; [intros []|constructor].
    + intros x H. destruct Js as [->|(j & -> & J1 & J2 & J3 & _)]; [destruct H|]. destruct H as [<-|[]]. auto.
    + intros x H. destruct Js as [->|(j & -> & J)]; destruct H.
    + intros c G. destruct (Closed c G) as [->|[H|[H|H]]]; auto.
    + intros b c Hb Fb. destruct (i_adj _ _ I b c Hb Fb) as [H|(l & r & El & Er)].
      * rewrite map_app. cbn [map fst]. apply adjacent_insert; [rewrite EL, map_app in H; exact H|]. intros ->.
        apply Np. rewrite (wf_one_fall _ _ _ _ WF p b f Rp (i_reach _ _ I b (or_introl Hb)) F Fb). exact Hb.
      * rewrite Pd in Er. injection Er as <- <-. exfalso.
        apply (wf_chain _ _ _ _ WF b p f (i_reach _ _ I b (or_introl Hb)) Fb F). apply (i_path _ _ I); [left; exact Hf|exact Np|exact Nfp].
    + intros c Fc. rewrite (Ff c Fc). left. rewrite map_app. exists (map fst l1), (map fst l2). reflexivity.
  - (* appended, the target next *)
    rewrite index_of_None by (intros H; apply Hf, positions_keys, H). eexists. exists (L ++ [(p, code)]). split; [reflexivity|].
    split; [|rewrite app_length; cbn; lia].
    apply (step_inv st L p rest code L [] (f :: js)); try assumption; cbn [e_pending e_visited e_pos e_asm].
    + symmetry. apply app_nil_r.
    + rewrite Pd1. reflexivity.
    + rewrite codes_app. unfold codes at 3. cbn. rewrite app_nil_r. reflexivity.
    + rewrite positions_app. unfold positions at 3. cbn. rewrite app_nil_r. reflexivity.
    + auto.
    + destruct Js as [->|(j & -> & _ & _ & _ & J & _)].
      * constructor; [intros []|constructor].
      * constructor; [intros [<-|[]]; apply J; reflexivity|]. constructor; [intros []|constructor].
    + intros x [<-|H]; [split; [left; exact F|auto]|]. destruct Js as [->|(j & -> & J1 & J2 & J3 & _)]; [destruct H|]. destruct H as [<-|[]]. auto.
    + cbn [tl]. intros x H. destruct Js as [->|(j & -> & _ & _ & _ & _ & J1 & J2)]; [destruct H|]. destruct H as [<-|[]]. exists blk. auto.
    + intros c G. destruct (Closed c G) as [->|[H|[H|H]]]; [right; right; left; reflexivity|right; right; right; exact H|auto|auto].
    + apply adj_append with (st := st) (rest := rest); assumption.
    + intros c Fc. right. rewrite (Ff c Fc). split; [reflexivity|]. exists js. reflexivity.
Qed.

Lemma visit_step st L p rest : inv st L -> e_pending st = p :: rest ->
  exists st' L', visit fns tags blocks p {| e_pending := rest; e_visited := e_visited st; e_pos := e_pos st; e_asm := e_asm st |} = Ok st' /\
    inv st' L' /\ length L' = S (length L).
Proof.
  intros I Pd.
  assert (Rp : reach p) by (apply (i_reach _ _ I); right; rewrite Pd; left; reflexivity).
  assert (Np : ~ In p (map fst L)) by (apply (proj2 (i_pend _ _ I)); rewrite Pd; left; reflexivity).
  destruct (code_exists p Rp) as (blk & code & Lp & Cp).
  destruct (block_asm_ok p blk code Rp Lp Cp) as (c0 & Ba & Ec).
  unfold visit. cbn [get]. rewrite Lp. cbn [of_option bind]. rewrite Ba. cbn [bind fst snd e_visited e_pending e_pos e_asm].
  assert (Same : forall b', lookup p blocks = Some b' -> b' = blk) by (intros b' E; rewrite Lp in E; congruence).
  assert (Vp : forall x, mem x (e_visited st ++ [p]) = true <-> In x (map fst L) \/ x = p).
  { intros x. rewrite mem_In, in_app_iff, (i_vis _ _ I). cbn. split; intros [H|H]; auto. destruct H as [H|[]]; auto. }
  assert (Edge : forall c, falls blocks p c \/ jumps blocks p c ->
     (In (eb_type blk) ["conditional"; "falls_to"; "sub_block"] /\ eb_falls_to blk = Some c) \/ (In (eb_type blk) ["conditional"; "unconditional"] /\ eb_jump_to blk = Some c)).
  { intros c [(b' & E & T & J)|(b' & E & T & J)]; rewrite (Same b' E) in *; auto. }
  assert (Fall : forall c, falls blocks p c -> In (eb_type blk) ["conditional"; "falls_to"; "sub_block"] /\ eb_falls_to blk = Some c).
  { intros c (b' & E & T & J); rewrite (Same b' E) in *; auto. }
  destruct (wf_kind _ _ _ _ WF p blk Rp Lp) as [[K (j & f & Ej & Ef & Bj & Bf)]|[[K (j & Ej & Bj)]|[[K (f & Ef & Bf)]|[[K [(f & Ef & Bf) _]]|[[K _]|[K|K]]]]]];
    unfold stop_of in Ec; rewrite K in *; cbn [String.eqb Ascii.eqb Bool.eqb orb] in *; rewrite ?Ej, ?Ef, ?(mem_lookup _ _ Bj), ?(mem_lookup _ _ Bf); cbn [andb]; rewrite ?app_nil_r in Ec.
  - (* conditional *) rewrite <- Ec. assert (J : jumps blocks p j) by (exists blk; rewrite K; split; [exact Lp|split; [left; reflexivity|exact Ej]]).
    assert (F : falls blocks p f) by (exists blk; rewrite K; split; [exact Lp|split; [left; reflexivity|exact Ef]]).
    assert (Njf : j <> f). { intros ->. destruct (wf_jumpi_target _ _ _ _ WF p p blk f Rp Rp Lp K Ej (or_introl F)) as [_ N]. apply N. exact Ef. }
    unfold push_unvisited. cbn [e_visited e_pending e_pos e_asm].
    destruct (mem j (e_visited st ++ [p])) eqn:M.
    + apply Vp in M. apply (falls_step st L p blk rest code f []); try assumption; try reflexivity.
      * left. reflexivity.
      * intros c Fc. apply Fall in Fc. destruct Fc as [_ Fc]. congruence.
      * intros c G. destruct (Edge c G) as [[_ E]|[_ E]]; [left; congruence|]. right. right. replace c with j by congruence. exact M.
    + assert (M' : ~ (In j (map fst L) \/ j = p)) by (intros H; apply Vp in H; congruence).
      apply (falls_step st L p blk rest code f [j]); try assumption; try reflexivity.
      * right. exists j. split; [reflexivity|]. split; [right; exact J|]. split; [intros H; apply M'; right; exact H|]. split; [intros H; apply M'; left; exact H|]. auto.
      * intros c Fc. apply Fall in Fc. destruct Fc as [_ Fc]. congruence.
      * intros c G. destruct (Edge c G) as [[_ E]|[_ E]]; [left; congruence|]. right. left. left. congruence.
  - (* unconditional *) rewrite <- Ec. assert (J : jumps blocks p j) by (exists blk; rewrite K; split; [exact Lp|split; [right; left; reflexivity|exact Ej]]).
    assert (NF : forall c, ~ falls blocks p c). { intros c Fc. apply Fall in Fc. destruct Fc as [[Q|[Q|[Q|[]]]] _]; discriminate. }
    eexists. exists (L ++ [(p, code)]). split; [reflexivity|]. split; [|rewrite app_length; cbn; lia].
    unfold push_unvisited. cbn [append_code e_visited e_pending e_pos e_asm].
    destruct (mem j (e_visited st ++ [p])) eqn:M.
    + apply Vp in M. apply (append_step st L p rest code []); try assumption; try reflexivity; [left; reflexivity|].
      intros c G. destruct (Edge c G) as [[[Q|[Q|[Q|[]]]] _]|[_ E]]; try discriminate. replace c with j by congruence. destruct M; auto.
    + assert (M' : ~ (In j (map fst L) \/ j = p)) by (intros H; apply Vp in H; congruence).
      apply (append_step st L p rest code [j]); try assumption; try reflexivity.
      * right. exists j. split; [reflexivity|]. split; [right; exact J|]. split; intros H; apply M'; auto.
      * intros c G. destruct (Edge c G) as [[[Q|[Q|[Q|[]]]] _]|[_ E]]; try discriminate. right. right. left. congruence.
  - (* falls to *) rewrite <- Ec. assert (F : falls blocks p f) by (exists blk; rewrite K; split; [exact Lp|split; [right; left; reflexivity|exact Ef]]).
    apply (falls_step st L p blk rest code f []); try assumption; try reflexivity.
    + left. reflexivity.
    + intros c Fc. apply Fall in Fc. destruct Fc as [_ Fc]. congruence.
    + intros c G. destruct (Edge c G) as [[_ E]|[[Q|[Q|[]]] _]]; try discriminate. left. congruence.
  - (* cut after a call *) rewrite <- Ec. assert (F : falls blocks p f) by (exists blk; rewrite K; split; [exact Lp|split; [right; right; left; reflexivity|exact Ef]]).
    apply (falls_step st L p blk rest code f []); try assumption; try reflexivity.
    + left. reflexivity.
    + intros c Fc. apply Fall in Fc. destruct Fc as [_ Fc]. congruence.
    + intros c G. destruct (Edge c G) as [[_ E]|[[Q|[Q|[]]] _]]; try discriminate. left. congruence.
  - rewrite <- Ec. eexists. exists (L ++ [(p, code)]). split; [reflexivity|]. split; [|rewrite app_length; cbn; lia].
    apply (append_step st L p rest code []); try assumption; try reflexivity; [|left; reflexivity|].
    + intros c Fc. apply Fall in Fc. destruct Fc as [[Q|[Q|[Q|[]]]] _]; discriminate.
    + intros c G. destruct (Edge c G) as [[[Q|[Q|[Q|[]]]] _]|[[Q|[Q|[]]] _]]; discriminate.
  - rewrite <- Ec. eexists. exists (L ++ [(p, code)]). split; [reflexivity|]. split; [|rewrite app_length; cbn; lia].
    apply (append_step st L p rest code []); try assumption; try reflexivity; [|left; reflexivity|].
    + intros c Fc. apply Fall in Fc. destruct Fc as [[Q|[Q|[Q|[]]]] _]; discriminate.
    + intros c G. destruct (Edge c G) as [[[Q|[Q|[Q|[]]]] _]|[[Q|[Q|[]]] _]]; discriminate.
  - eexists. exists (L ++ [(p, code)]). split; [reflexivity|]. split; [|rewrite app_length; cbn; lia].
    rewrite <- app_assoc, <- Ec.
    apply (append_step st L p rest code []); try assumption; try reflexivity; [|left; reflexivity|].
    + intros c Fc. apply Fall in Fc. destruct Fc as [[Q|[Q|[Q|[]]]] _]; discriminate.
    + intros c G. destruct (Edge c G) as [[[Q|[Q|[Q|[]]]] _]|[[Q|[Q|[]]] _]]; discriminate.
Qed.

Lemma keys_bound st L : inv st L -> length L <= length blocks.
Proof.
  intros I. rewrite <- (map_length fst L), <- (map_length fst blocks). apply NoDup_incl_length; [exact (i_nodup _ _ I)|].
  intros x H. destruct (code_exists x (i_reach _ _ I x (or_introl H))) as (blk & _ & E & _). apply lookup_In_key. congruence.
Qed.
Lemma loop_ok : forall fuel st L, inv st L -> length blocks <= fuel + length L ->
  exists L', traverse_loop fuel fns tags blocks st = Ok (codes L') /\ exists st', e_pending st' = [] /\ inv st' L'.
Proof.
  induction fuel as [|fuel IH]; intros st L I B; cbn [traverse_loop]; destruct (e_pending st) as [|p rest] eqn:Pd.
  - exists L. split; [rewrite (i_asm _ _ I); reflexivity|]. exists st. auto.
  - destruct (visit_step st L p rest I Pd) as (st' & L' & _ & I' & Len). pose proof (keys_bound st' L' I'). lia.
  - exists L. split; [rewrite (i_asm _ _ I); reflexivity|]. exists st. auto.
  - destruct (visit_step st L p rest I Pd) as (st' & L' & V & I' & Len). rewrite V. cbn [bind]. apply (IH st' L' I'). lia.
Qed.
End Emission.

(** C26 *)
Theorem emission_layout_partial : forall fns tags blocks start fuel,
  well_formed fns tags blocks start -> length blocks <= fuel ->
  exists order code, traverse_cfg_block_list fuel fns tags blocks start = Ok code /\ laid_out fns tags blocks start order code.
Proof.
  intros fns tags blocks start fuel WF B. destruct (wf_start _ _ _ _ WF) as [S1 S2].
  unfold traverse_cfg_block_list. cbn [get]. destruct (lookup start blocks) as [sb|] eqn:Ls; [|destruct (S1 eq_refl)]. cbn [of_option bind]. rewrite S2. cbn [py_assert bind].
  assert (I0 : inv fns tags blocks start {| e_pending := [start]; e_visited := []; e_pos := []; e_asm := [] |} []).
  { constructor; cbn; try reflexivity; try constructor; try (intros; contradiction).
    - intros x [[]|[<-|[]]]. constructor.
    - intros a x [[]|[<-|[]]] _ N. constructor. exact N.
    - repeat constructor. intros [].
    - intros x _ []. }
  destruct (loop_ok fns tags blocks start WF fuel _ [] I0) as (L & E & st & Pd & I); [cbn; lia|].
  exists (map fst L), (codes L). split; [exact E|].
  assert (All : forall b, In b (map fst L) <-> reachable blocks start b).
  { intros b. split; [intros H; apply (i_reach _ _ _ _ _ _ I); left; exact H|]. intros R. induction R as [|b c R IH G].
    - pose proof (i_first _ _ _ _ _ _ I) as F. destruct L as [|q L]; [rewrite Pd in F; discriminate|]. left. exact F.
    - destruct (i_closed _ _ _ _ _ _ I b c IH G) as [H|H]; [exact H|]. rewrite Pd in H. destruct H. }
  split; [|split; [|split; [|split]]].
  - pose proof (i_first _ _ _ _ _ _ I) as F. destruct L as [|q L]; [rewrite Pd in F; discriminate|]. exists (map fst L). cbn. rewrite F. reflexivity.
  - exact (i_nodup _ _ _ _ _ _ I).
  - exact All.
  - exists (map snd L). split; [|reflexivity]. pose proof (i_code _ _ _ _ _ _ I) as C. clear - C. induction C; constructor; assumption.
  - intros b c R F. destruct (i_adj _ _ _ _ _ _ I b c (proj2 (All b) R) F) as [H|(l & r & _ & Er)]; [exact H|]. rewrite Pd in Er. discriminate.
Qed.
Print Assumptions emission_layout_partial.

(** ** The code of an object *)
Lemma traverse_lists_ok fns tags fuel lists :
  (forall blocks start, In (blocks, start) lists -> well_formed fns tags blocks start /\ length blocks <= fuel) ->
  exists parts, traverse_lists fuel fns tags lists = Ok (concat parts) /\
    Forall2 (fun l code => exists order, laid_out fns tags (fst l) (snd l) order code) lists parts.
Proof.
  induction lists as [|[blocks start] lists IH]; intros H; cbn [traverse_lists].
  - exists []. split; [reflexivity|constructor].
  - destruct (H blocks start (or_introl eq_refl)) as [WF B]. destruct (emission_layout_partial fns tags blocks start fuel WF B) as (order & code & E & Lo).
    destruct IH as (parts & E' & F); [intros b s Hb; apply H; right; exact Hb|]. exists (code :: parts). rewrite E. cbn [bind]. rewrite E'. cbn [bind].
    split; [reflexivity|]. constructor; [exists order; exact Lo|exact F].
Qed.
Theorem object_layout_partial : forall fuel tags main functions,
  (forall blocks start, In (blocks, start) (main :: map snd functions) ->
     well_formed (map fst functions) tags blocks start /\ length blocks <= fuel) ->
  exists parts, traverse_cfg fuel tags main functions = Ok (concat parts) /\
    Forall2 (fun l code => exists order, laid_out (map fst functions) tags (fst l) (snd l) order code) (main :: map snd functions) parts.
Proof. intros fuel tags main functions H. apply traverse_lists_ok. exact H. Qed.
Print Assumptions object_layout_partial.

(** Definitions of the tag [t]. *)
Definition defines (t : Z) (a : asm) : bool :=
  String.eqb (a_name a) "tag" && match a_value a with Some v => match py_int v with Some z => Z.eqb z t | None => false end | None => false end.
Definition definitions (t : Z) (code : list asm) : nat := length (filter (defines t) code).
Lemma definitions_app t c1 c2 : definitions t (c1 ++ c2) = definitions t c1 + definitions t c2.
Proof. unfold definitions. rewrite filter_app, app_length. reflexivity. Qed.
Lemma definitions_none t c : (forall a, In a c -> a_name a <> "tag") -> definitions t c = 0.
Proof.
  intros H. unfold definitions. induction c as [|a c IH]; [reflexivity|]. cbn. unfold defines at 1. destruct (String.eqb_spec (a_name a) "tag") as [E|E].
  - destruct (H a (or_introl eq_refl) E).
  - cbn. apply IH. intros x Hx. apply H. right. exact Hx.
Qed.
Definition tagged (tags : list (string * Z)) (t : Z) (b : string) : bool := match lookup b tags with Some z => Z.eqb z t | None => false end.

(** No id and no last instruction is translated to an item with the name "tag". *)
Definition no_tag_item (fns : list string) (blocks : list (string * eblock)) (b : string) : Prop :=
  forall blk ids last a, lookup b blocks = Some blk -> asm_from_ids (eb_spec blk) (eb_ids blk) = Ok ids ->
    match eb_split blk with Some s => asm_for_split_instruction s fns = Ok last | None => last = [] end -> In a (ids ++ last) -> a_name a <> "tag".
Lemma block_definitions fns tags blocks b code t : (forall x z, lookup x tags = Some z -> (0 <= z)%Z) -> no_tag_item fns blocks b ->
  block_code fns tags blocks b code -> definitions t code = if tagged tags t b then 1 else 0.
Proof.
  intros Pos NT (blk & ids & last & E & Ids & Last & ->). rewrite definitions_app.
  replace (definitions t (ids ++ last ++ _)) with 0.
  - rewrite Nat.add_0_r. unfold tagged. destruct (lookup b tags) as [z|] eqn:Lt; [|reflexivity].
    unfold definitions, defines. cbn -[py_int upper str_Z]. rewrite py_int_str_Z by (apply (Pos b); exact Lt). destruct (Z.eqb z t); reflexivity.
  - symmetry. rewrite app_assoc, definitions_app. rewrite definitions_none by (intros a Ha; apply (NT blk ids last a E Ids Last Ha)).
    destruct (String.eqb (eb_type blk) "mainExit"); reflexivity.
Qed.
Lemma concat_definitions fns tags blocks order cs t : (forall x z, lookup x tags = Some z -> (0 <= z)%Z) -> (forall b, In b order -> no_tag_item fns blocks b) ->
  Forall2 (block_code fns tags blocks) order cs -> definitions t (concat cs) = length (filter (tagged tags t) order).
Proof.
  intros Pos NT F. induction F as [|b c order cs Hb F IH]; [reflexivity|]. cbn [concat]. rewrite definitions_app.
  rewrite (block_definitions fns tags blocks b c t Pos) by (auto; apply NT; left; reflexivity). rewrite IH by (intros x Hx; apply NT; right; exact Hx).
  cbn [filter]. destruct (tagged tags t b); reflexivity.
Qed.
Lemma filter_unique (f : string -> bool) b l : NoDup l -> In b l -> (forall x, In x l -> f x = true <-> x = b) -> length (filter f l) = 1.
Proof.
  intros ND H U. induction ND as [|y l Ny ND IH]; [destruct H|]. cbn. destruct H as [->|H].
  - rewrite (proj2 (U b (or_introl eq_refl)) eq_refl). cbn. f_equal. assert (E : filter f l = []); [|rewrite E; reflexivity].
    assert (Q : forall x, In x l -> f x = false). { intros x Hx. destruct (f x) eqn:Fx; [|reflexivity]. apply (U x (or_intror Hx)) in Fx. subst x. destruct (Ny Hx). }
    clear - Q. induction l as [|x l IH]; [reflexivity|]. cbn. rewrite (Q x (or_introl eq_refl)). apply IH. intros y Hy. apply Q. right. exact Hy.
  - destruct (f y) eqn:Fy; [apply (U y (or_introl eq_refl)) in Fy; subst y; destruct (Ny H)|]. apply IH; [exact H|]. intros x Hx. apply U. right. exact Hx.
Qed.
Lemma filter_nobody (f : string -> bool) l : (forall x, In x l -> f x = false) -> length (filter f l) = 0.
Proof. intros Q. induction l as [|x l IH]; [reflexivity|]. cbn. rewrite (Q x (or_introl eq_refl)). apply IH. intros y Hy. apply Q. right. exact Hy. Qed.

(** C26, C21: the tag of a reachable block is defined exactly once in the code of
    the object, whatever jumps use it. *)
Theorem tag_defined_once_partial : forall fuel tags main functions lists blocks start b t code,
  lists = main :: map snd functions ->
  (forall bs s, In (bs, s) lists -> well_formed (map fst functions) tags bs s /\ length bs <= fuel) ->
  (* names of blocks are not shared between block lists, tags are not shared between blocks *)
  NoDup (concat (map (fun l => map fst (fst l)) lists)) ->
  (forall x y z, lookup x tags = Some z -> lookup y tags = Some z -> x = y) -> (forall x z, lookup x tags = Some z -> (0 <= z)%Z) ->
  (forall bs s x, In (bs, s) lists -> reachable bs s x -> no_tag_item (map fst functions) bs x) ->
  In (blocks, start) lists -> reachable blocks start b -> lookup b tags = Some t ->
  traverse_cfg fuel tags main functions = Ok code -> definitions t code = 1.
Proof.
  intros fuel tags main functions lists blocks start b t code EL WF ND Inj Pos NT Hin R Lt E.
  destruct (object_layout_partial fuel tags main functions) as (parts & E' & F); [rewrite <- EL; exact WF|].
  rewrite E in E'. injection E' as ->. rewrite <- EL in F. clear EL E.
  assert (Tb : forall x, tagged tags t x = true <-> x = b).
  { intros x. unfold tagged. destruct (lookup x tags) as [z|] eqn:Lx; split; intros H.
    - apply Z.eqb_eq in H. subst z. exact (Inj x b t Lx Lt).
    - subst x. rewrite Lt in Lx. injection Lx as <-. apply Z.eqb_refl.
    - discriminate.
    - subst x. congruence. }
  assert (Part : forall bs s part, In (bs, s) lists -> (exists order, laid_out (map fst functions) tags bs s order part) ->
     (reachable bs s b -> definitions t part = 1) /\ (~ reachable bs s b -> definitions t part = 0)).
  { intros bs s part Hl (order & _ & NDo & All & (cs & Fc & ->) & _).
    rewrite (concat_definitions (map fst functions) tags bs order cs t Pos); [|intros x Hx; apply (NT bs s x Hl), All, Hx|exact Fc]. split; intros Rb.
    - apply filter_unique with b; [exact NDo|apply All; exact Rb|]. intros x _. apply Tb.
    - apply filter_nobody. intros x Hx. destruct (tagged tags t x) eqn:Q; [|reflexivity]. apply Tb in Q. subst x. apply All in Hx. destruct (Rb Hx). }
  assert (Key : forall bs s x, In (bs, s) lists -> reachable bs s x -> In x (map fst bs)).
  { intros bs s x Hl Rx. destruct (wf_code _ _ _ _ (proj1 (WF bs s Hl)) x Rx) as (c & k & _ & _ & Lk & _). apply lookup_In_key. congruence. }
  clear WF NT. revert Hin ND Part Key. induction F as [|[bs s] part lists parts Hp F IH]; intros Hin ND Part Key; [destruct Hin|].
  cbn [concat]. rewrite definitions_app. cbn [map concat fst] in ND.
  assert (ND2 : NoDup (concat (map (fun l => map fst (fst l)) lists))) by (clear - ND; revert ND; induction (map fst bs) as [|k ks IHk]; cbn; intros ND; [exact ND|inversion ND; auto]).
  assert (Dj : forall x, In x (map fst bs) -> ~ In x (concat (map (fun l => map fst (fst l)) lists))).
  { clear - ND. revert ND. induction (map fst bs) as [|k ks IHk]; cbn; intros ND x Hx; [destruct Hx|]. inversion ND as [|? ? N1 N2]; subst.
    destruct Hx as [<-|Hx]; [intros H; apply N1; apply in_or_app; right; exact H|apply IHk; assumption]. }
  assert (Other : (forall bs' s', In (bs', s') lists -> ~ reachable bs' s' b) -> definitions t (concat parts) = 0).
  { intros Q. clear - F Q Part. assert (P2 : forall bs0 s0 part0, In (bs0, s0) lists -> (exists order, laid_out (map fst functions) tags bs0 s0 order part0) -> definitions t part0 = 0).
    { intros bs0 s0 part0 Hl Ho. apply (Part bs0 s0 part0 (or_intror Hl) Ho). apply (Q bs0 s0 Hl). }
    clear Part Q. induction F as [|[bs1 s1] part1 lists parts Hp F IH]; [reflexivity|]. cbn [concat]. rewrite definitions_app.
    rewrite (P2 bs1 s1 part1 (or_introl eq_refl) Hp). apply IH. intros bs0 s0 part0 Hl. apply P2. right. exact Hl. }
  destruct Hin as [Eq|Hin].
  - injection Eq as -> ->. rewrite (proj1 (Part blocks start part (or_introl eq_refl) Hp) R). rewrite Other; [reflexivity|].
    intros bs' s' Hl Rb. apply (Dj b); [apply (Key blocks start); [left; reflexivity|exact R]|]. apply in_concat. exists (map fst bs'). split; [|apply (Key bs' s'); [right; exact Hl|exact Rb]].
    apply in_map_iff. exists (bs', s'). split; [reflexivity|exact Hl].
  - rewrite (proj2 (Part bs s part (or_introl eq_refl) Hp)).
    + apply IH; try assumption; [intros bs0 s0 part0 Hl; apply Part; right; exact Hl|intros bs0 s0 x Hl; apply Key; right; exact Hl].
    + intros Rb. apply (Dj b); [apply (Key bs s); [left; reflexivity|exact Rb]|]. apply in_concat. exists (map fst blocks). split; [|apply (Key blocks start); [right; exact Hin|exact R]].
      apply in_map_iff. exists (blocks, start). split; [reflexivity|exact Hin].
Qed.
Print Assumptions tag_defined_once_partial.

(** The code of a block cut into several is the code of its parts in a row. *)
Theorem cut_block_code : forall fns blocks fuel b acc e code,
  generate_asm_split_blocks fuel fns blocks b acc = Ok (e, code) -> exists rest, code = acc ++ rest /\ cut_code fns blocks b e rest.
Proof.
  intros fns blocks. induction fuel as [|fuel IH]; intros b acc e code; cbn [generate_asm_split_blocks]; (destruct (eb_split b) as [s|] eqn:S; cbn [of_option bind]; [|discriminate]);
    (destruct (asm_from_ids (eb_spec b) (eb_ids b)) as [ids|] eqn:I; cbn [bind]; [|discriminate]); (destruct (asm_for_split_instruction s fns) as [last|] eqn:A; cbn [bind]; [|discriminate]);
    destruct (String.eqb_spec (eb_type b) "sub_block") as [T|T]; cbn [andb]; try (intros H; injection H as <- <-; exists (ids ++ last); split; [reflexivity|]; econstructor; eauto; fail);
    destruct (mem (ci_op s) fns) eqn:M; cbn [negb]; try (intros H; injection H as <- <-; exists (ids ++ last); split; [reflexivity|]; econstructor; eauto; right; now apply mem_In); try discriminate.
  destruct (eb_falls_to b) as [n|] eqn:F; cbn [get bind]; [|discriminate]. destruct (lookup n blocks) as [b'|] eqn:L; cbn [of_option bind]; [|discriminate]. intros H. apply IH in H as (rest & -> & C).
  exists (ids ++ last ++ rest). split; [now rewrite <- !app_assoc|]. econstructor; eauto. intros N. apply mem_In in N. congruence.
Qed.
Print Assumptions cut_block_code.
