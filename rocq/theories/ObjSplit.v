(** A block cut in two: the object does the same. *)
From Verif Require Import Base Lexical UtilModel UtilProps LiveModel CfgModel JumpModel ObjSem ObjSim.
Open Scope string_scope. Open Scope list_scope.

Definition start_at (ob : cobject) (c : option string) : option string :=
  match blocks_at ob c with Some g => cl_start g | None => None end.
Definition renamed (id new x : string) : string := if String.eqb x id then new else x.
Record cut (ob ob' : cobject) (c0 : option string) (id f s : string) (b : cblock) (L1 L2 : list linstr) : Prop := {
  cu_block : block_at ob c0 id = Some b;
  cu_instrs : cb_instrs b = L1 ++ L2;
  cu_phis : forall i, In i L2 -> li_op i <> "PhiFunction";
  cu_noself : cb_jump_to b <> Some id /\ cb_falls_to b <> Some id;
  cu_first : exists bf, block_at ob' c0 f = Some bf /\ cb_instrs bf = L1 /\ cb_entries bf = cb_entries b
    /\ cb_type bf <> "mainExit" /\ cb_type bf <> "conditional" /\ match cb_jump_to bf with Some j => j = s | None => cb_falls_to bf = Some s end;
  cu_second : exists bs, block_at ob' c0 s = Some bs /\ core bs = (L2, cb_type b, cb_jump_to b, cb_falls_to b, cb_cond b, cb_entries bs);
  cu_fresh : block_at ob c0 s = None;
  cu_halves : f <> s;
  cu_others : forall x bx, x <> id -> block_at ob c0 x = Some bx -> ~ In s (cb_entries bx) /\ exists bx', block_at ob' c0 x = Some bx'
    /\ core bx' = (cb_instrs bx, cb_type bx, option_map (renamed id f) (cb_jump_to bx), option_map (renamed id f) (cb_falls_to bx), cb_cond bx, map (renamed id s) (cb_entries bx));
  cu_else : forall c x, c <> c0 -> option_map core (block_at ob' c x) = option_map core (block_at ob c x);
  cu_args : forall g, option_map fn_args (lookup g (ob_functions ob')) = option_map fn_args (lookup g (ob_functions ob));
  cu_start : forall c, start_at ob' c = if opt_eqb c c0 then option_map (renamed id f) (start_at ob c) else start_at ob c;
  (* control stays in the component *)
  cu_closed : forall x bx y, block_at ob c0 x = Some bx -> cb_jump_to bx = Some y \/ cb_falls_to bx = Some y -> block_at ob c0 y <> None;
  cu_begin : forall x, start_at ob c0 = Some x -> block_at ob c0 x <> None
}.

Lemma phis_of_app L1 L2 : (forall i, In i L2 -> li_op i <> "PhiFunction") -> phis_of (L1 ++ L2) = (fst (phis_of L1), snd (phis_of L1) ++ L2).
Proof.
  intros N. induction L1 as [|i L1 IH].
  - cbn. destruct L2 as [|j L2]; [reflexivity|]. cbn [phis_of]. destruct (String.eqb_spec (li_op j) "PhiFunction") as [Q|]; [elim (N j (or_introl eq_refl) Q)|reflexivity].
  - cbn [app phis_of]. destruct (String.eqb (li_op i) "PhiFunction"); [|reflexivity]. rewrite IH. destruct (phis_of L1). reflexivity.
Qed.
Lemma index_renamed id s x : forall l, x <> s -> ~ In s l -> index_of (renamed id s x) (map (renamed id s) l) = index_of x l.
Proof.
  unfold renamed. induction l as [|y l IH]; intros NX NI; [reflexivity|]. cbn [map index_of].
  assert (Q : String.eqb (if String.eqb y id then s else y) (if String.eqb x id then s else x) = String.eqb y x).
  { destruct (String.eqb_spec y id) as [->|], (String.eqb_spec x id) as [->|].
    - now rewrite !String.eqb_refl.
    - destruct (String.eqb_spec s x); [congruence|]. destruct (String.eqb_spec id x); [congruence|reflexivity].
    - destruct (String.eqb_spec y s) as [->|]; [elim NI; now left|]. destruct (String.eqb_spec y id); [congruence|reflexivity].
    - reflexivity. }
  rewrite Q. destruct (String.eqb y x); [reflexivity|]. rewrite IH; [reflexivity|exact NX|]. intros H. apply NI. now right.
Qed.

Section Cut.
Variables (ob ob' : cobject) (c0 : option string) (id f s : string) (b0 : cblock) (L1 L2 : list linstr).
Hypothesis C : cut ob ob' c0 id f s b0 L1 L2.
Context {V W : Type}.
Variable M : words V W.

Inductive here (c : option string) (b : string) (rest : list linstr) : string -> list linstr -> Prop :=
| in_first rest' : c = c0 -> b = id -> rest = rest' ++ L2 -> here c b rest f rest'
| in_second : c = c0 -> b = id -> here c b rest s rest
| elsewhere : (c <> c0 \/ b <> id /\ block_at ob c0 b <> None) -> here c b rest b rest.
Inductive waiting : suspended V -> suspended V -> Prop :=
| both c b rest outs e b' rest' : here c b rest b' rest' ->
    waiting {| sp_comp := c; sp_block := b; sp_rest := rest; sp_outs := outs; sp_vars := e |} {| sp_comp := c; sp_block := b'; sp_rest := rest'; sp_outs := outs; sp_vars := e |}.
Inductive corr : state V W -> state V W -> Prop :=
| corr_doing c b rest e w calls b' rest' calls' : here c b rest b' rest' -> Forall2 waiting calls calls' -> corr (Doing c b rest e w calls) (Doing c b' rest' e w calls')
| corr_done op args w : corr (Done op args w) (Done op args w).

Lemma c0_dec (c : option string) : {c = c0} + {c <> c0}.
Proof. decide equality. apply string_dec. Qed.
Definition into (c : option string) (x : string) : string := if opt_eqb c c0 then renamed id f x else x.
Lemma opt_eqb_refl (c : option string) : opt_eqb c c = true. Proof. destruct c; cbn; [apply String.eqb_refl|reflexivity]. Qed.
Lemma opt_eqb_neq (c c' : option string) : c <> c' -> opt_eqb c c' = false.
Proof. destruct c as [x|], c' as [y|]; cbn; try reflexivity; [|congruence]. intros H. destruct (String.eqb_spec x y); congruence. Qed.

Lemma arrive_core (x y : cblock) from e : cb_instrs y = cb_instrs x -> cb_entries y = cb_entries x -> arrive M y from e = arrive M x from e.
Proof. unfold arrive. intros -> ->. reflexivity. Qed.

(** From a block of the source, or from nowhere. *)
Definition from_ok (c from : option string) (to : string) (from' : option string) : Prop :=
  match from with
  | None => from' = None
  | Some p => c <> c0 /\ from' = Some p \/ c = c0 /\ p <> s /\ from' = Some (renamed id s p) /\ (to = id -> p <> id)
  end.
Lemma goto_cut c from from' to e w calls calls' : from_ok c from to from' -> (c = c0 -> block_at ob c0 to <> None) -> Forall2 waiting calls calls' ->
  orel corr (goto M ob c from (Some to) e w calls) (goto M ob' c from' (Some (into c to)) e w calls').
Proof.
  intros FO BT FW. unfold goto. destruct (c0_dec c) as [->|NC].
  - specialize (BT eq_refl). destruct (block_at ob c0 to) as [blk|] eqn:BL; [clear BT|congruence].
    unfold into. rewrite opt_eqb_refl. destruct (string_dec to id) as [->|NT].
    + rewrite (cu_block _ _ _ _ _ _ _ _ _ C) in BL. injection BL as <-. replace (renamed id f id) with f by (unfold renamed; now rewrite String.eqb_refl).
      destruct (cu_first _ _ _ _ _ _ _ _ _ C) as (bf & BF & QI & QE & _). rewrite BF.
      unfold arrive. rewrite (cu_instrs _ _ _ _ _ _ _ _ _ C), (phis_of_app L1 L2 (cu_phis _ _ _ _ _ _ _ _ _ C)), QI. destruct (phis_of L1) as [ps r] eqn:PH. cbn [fst snd].
      destruct ps as [|p ps].
      * cbn. constructor; [now constructor|exact FW].
      * rewrite QE. destruct from as [q|]; [|cbn in FO; subst from'; exact I]. cbn in FO. destruct FO as [(N & _)|(_ & NS & -> & NI)]; [congruence|]. specialize (NI eq_refl).
        replace (renamed id s q) with q by (unfold renamed; destruct (String.eqb_spec q id); congruence). destruct (index_of q (cb_entries b0)) as [k|]; [|exact I].
        destruct (phi_values M e k (p :: ps)) as [vs|]; [|exact I]. cbn. constructor; [now constructor|exact FW].
    + replace (renamed id f to) with to by (unfold renamed; destruct (String.eqb_spec to id); congruence).
      destruct (cu_others _ _ _ _ _ _ _ _ _ C to blk NT BL) as (NE & bx & BX & Q). rewrite BX. unfold core in Q. injection Q as QI QT QJ QF QC QE.
      assert (AR' : arrive M bx from' e = arrive M blk from e).
      { unfold arrive. rewrite QI, QE. destruct (phis_of (cb_instrs blk)) as [[|p ps] r]; [reflexivity|]. destruct from as [q|]; [|cbn in FO; subst; reflexivity].
        cbn in FO. destruct FO as [(N & _)|(_ & NS & -> & NI)]; [congruence|]. rewrite index_renamed; [reflexivity|exact NS|exact NE]. }
      rewrite AR'. destruct (arrive M blk from e) as [[rest e1]|]; [|exact I]. cbn. constructor; [apply elsewhere; right; split; congruence|exact FW].
  - clear BT. unfold into. rewrite (opt_eqb_neq _ _ NC). pose proof (cu_else _ _ _ _ _ _ _ _ _ C c to NC) as Q.
    destruct (block_at ob c to) as [blk|] eqn:BL; destruct (block_at ob' c to) as [bx|]; try discriminate; [|exact I].
    unfold core in Q. injection Q as QI QT QJ QF QC QE.
    assert (FE : from' = from) by (destruct from as [q|]; cbn in FO; [destruct FO as [(_ & ->)|(N & _)]; [reflexivity|contradiction]|exact FO]). subst from'.
    rewrite (arrive_core blk bx from e QI QE). destruct (arrive M blk from e) as [[rest e1]|]; [|exact I]. cbn. constructor; [apply elsewhere; now left|exact FW].
Qed.

(** The end of the first half. *)
Lemma to_second e w calls : ostep M ob' (Doing c0 f [] e w calls) = Some (Doing c0 s L2 e w calls).
Proof.
  destruct (cu_first _ _ _ _ _ _ _ _ _ C) as (bf & BF & QI & QE & T1 & T2 & NX).
  destruct (cu_second _ _ _ _ _ _ _ _ _ C) as (bs & BS & Q). unfold core in Q. injection Q as SI ST SJ SF SC.
  cbn [ostep]. rewrite BF. destruct (String.eqb_spec (cb_type bf) "mainExit"); [congruence|]. unfold next_block. destruct (String.eqb_spec (cb_type bf) "conditional"); [congruence|].
  replace (match cb_jump_to bf with Some t => Some t | None => cb_falls_to bf end) with (Some s) by (destruct (cb_jump_to bf); congruence). unfold goto. rewrite BS. unfold arrive. rewrite SI.
  pose proof (phis_of_app [] L2 (cu_phis _ _ _ _ _ _ _ _ _ C)) as P. cbn in P. rewrite P. reflexivity.
Qed.

Lemma normal c b rest e w calls t : corr (Doing c b rest e w calls) t -> exists m b' rest' calls', iter (ostep M ob') m t = Some (Doing c b' rest' e w calls')
  /\ here c b rest b' rest' /\ Forall2 waiting calls calls' /\ (rest = [] -> b = id -> c = c0 -> b' = s) /\ (rest <> [] -> rest' <> []).
Proof.
  intros H. inversion H as [? ? ? ? ? ? b' rest' calls' HH FW|]; subst. destruct HH as [rest' -> -> ->| -> ->|N].
  - destruct rest' as [|i r].
    + exists 1, s, L2, calls'. split; [cbn [iter]; rewrite to_second; reflexivity|]. cbn [app]. split; [now constructor|]. auto.
    + exists 0, f, (i :: r), calls'. split; [reflexivity|]. split; [now constructor|]. split; [exact FW|]. split; discriminate.
  - exists 0, s, rest, calls'. split; [reflexivity|]. split; [now constructor|]. auto.
  - exists 0, b, rest, calls'. split; [reflexivity|]. split; [now apply elsewhere|]. split; [exact FW|]. split; [|auto]. intros _ -> ->. destruct N as [N|(N & _)]; congruence.
Qed.
Lemma here_tail c b i rest b' rest' : here c b (i :: rest) b' rest' -> rest' <> [] -> exists r, rest' = i :: r /\ here c b rest b' r.
Proof.
  intros H N. destruct H as [rest' -> -> Q| -> ->|NE].
  - destruct rest' as [|j r]; [congruence|]. cbn in Q. injection Q as -> Q. exists r. split; [reflexivity|]. now constructor.
  - exists rest. split; [reflexivity|now constructor].
  - exists rest. split; [reflexivity|now apply elsewhere].
Qed.

Lemma cut_lock st t : corr st t -> exists m t', iter (ostep M ob') m t = Some t' /\ ends st = ends t' /\ orel corr (ostep M ob st) (ostep M ob' t').
Proof.
  intros H. destruct st as [c b rest e w calls|op args w]; [|inversion H; subst; exists 0, (Done op args w); split; [reflexivity|]; split; [reflexivity|exact I]].
  destruct (normal c b rest e w calls t H) as (m & b' & rest' & calls' & IT & HH & FW & NE & NR).
  exists m, (Doing c b' rest' e w calls'). split; [exact IT|]. split; [reflexivity|]. clear IT m t H. cbn [ostep]. destruct rest as [|i rest].
  - assert (B0 : (exists blk, block_at ob c b = Some blk) \/ c <> c0 /\ block_at ob c b = None /\ block_at ob' c b = None /\ b' = b /\ rest' = []).
    { destruct (block_at ob c b) as [blk|] eqn:BL; [left; eauto|]. right. destruct HH as [rest' -> -> QQ| -> ->|N].
      - rewrite (cu_block _ _ _ _ _ _ _ _ _ C) in BL. discriminate.
      - rewrite (cu_block _ _ _ _ _ _ _ _ _ C) in BL. discriminate.
      - destruct (c0_dec c) as [->|NC]; [destruct N as [|(_ & N)]; congruence|]. split; [exact NC|]. split; [reflexivity|]. split; [|auto].
        pose proof (cu_else _ _ _ _ _ _ _ _ _ C c b NC) as Q1. rewrite BL in Q1. destruct (block_at ob' c b); [discriminate|reflexivity]. }
    destruct B0 as [(blk & BL)|(NC & BL & BL' & -> & ->)]; [|rewrite BL, BL'; exact I].
    assert (B2 : exists blk', rest' = [] /\ block_at ob' c b' = Some blk' /\ cb_type blk' = cb_type blk /\ cb_cond blk' = cb_cond blk
              /\ (cb_jump_to blk' = option_map (into c) (cb_jump_to blk)) /\ (cb_falls_to blk' = option_map (into c) (cb_falls_to blk))
              /\ forall to, (cb_jump_to blk = Some to \/ cb_falls_to blk = Some to) -> from_ok c (Some b) to (Some b') /\ (c = c0 -> block_at ob c0 to <> None)).
    { destruct (c0_dec c) as [->|NC].
      - unfold into. rewrite opt_eqb_refl. destruct (string_dec b id) as [->|NB].
        + rewrite (NE eq_refl eq_refl eq_refl) in *. clear NE. inversion HH as [? _ _ QQ| _ _ E1 E2|N]; subst; [| |destruct N as [|(? & _)]; congruence].
          * exfalso. apply (cu_halves _ _ _ _ _ _ _ _ _ C). congruence.
          * destruct (cu_second _ _ _ _ _ _ _ _ _ C) as (bs & BS & Q2). unfold core in Q2. injection Q2 as SI ST SJ SF SC.
            pose proof BL as BL0. rewrite (cu_block _ _ _ _ _ _ _ _ _ C) in BL. injection BL as <-. destruct (cu_noself _ _ _ _ _ _ _ _ _ C) as (X1 & X2).
            assert (R1 : forall o : option string, o <> Some id -> o = option_map (renamed id f) o).
            { intros [o|] No; [|reflexivity]. cbn. unfold renamed. destruct (String.eqb_spec o id); congruence. }
            exists bs. split; [reflexivity|]. split; [exact BS|]. split; [exact ST|]. split; [exact SC|]. split; [rewrite SJ; now apply R1|]. split; [rewrite SF; now apply R1|].
            intros to TO. split; [|intros _; eapply (cu_closed _ _ _ _ _ _ _ _ _ C); eauto]. right. split; [reflexivity|]. split; [|split].
            { intros QI. pose proof (cu_block _ _ _ _ _ _ _ _ _ C) as K. rewrite QI, (cu_fresh _ _ _ _ _ _ _ _ _ C) in K. discriminate. }
            { unfold renamed. now rewrite String.eqb_refl. }
            { intros ->. destruct TO; contradiction. }
        + assert (HE : b' = b /\ rest' = []) by (inversion HH; subst; auto; congruence). destruct HE as (-> & ->).
          destruct (cu_others _ _ _ _ _ _ _ _ _ C b blk NB BL) as (_ & bx & BX & Q1). unfold core in Q1. injection Q1 as QI QT QJ QF QC QE.
          exists bx. split; [reflexivity|]. split; [exact BX|]. split; [exact QT|]. split; [exact QC|]. split; [exact QJ|]. split; [exact QF|].
          intros to TO. split; [|intros _; eapply (cu_closed _ _ _ _ _ _ _ _ _ C); eauto]. right. split; [reflexivity|]. split; [|split; [|intros _; exact NB]].
          * intros ->. rewrite (cu_fresh _ _ _ _ _ _ _ _ _ C) in BL. discriminate.
          * unfold renamed. destruct (String.eqb_spec b id); congruence.
      - assert (HE : b' = b /\ rest' = []) by (inversion HH; subst; auto; congruence). destruct HE as (-> & ->).
        unfold into. rewrite (opt_eqb_neq _ _ NC). pose proof (cu_else _ _ _ _ _ _ _ _ _ C c b NC) as Q1. rewrite BL in Q1. destruct (block_at ob' c b) as [bx|] eqn:BX; [|discriminate].
        unfold core in Q1. injection Q1 as QI QT QJ QF QC QE. exists bx. split; [reflexivity|]. split; [reflexivity|]. split; [exact QT|]. split; [exact QC|].
        assert (IDM : forall o : option string, o = option_map (fun x => x) o) by (intros [|]; reflexivity).
        split; [rewrite QJ; apply IDM|]. split; [rewrite QF; apply IDM|]. intros to _. split; [left; auto|intros; contradiction]. }
    destruct B2 as (blk' & -> & BL' & TY & CO & JU & FA & FO). rewrite BL, BL', TY. destruct (String.eqb (cb_type blk) "mainExit"); [constructor|].
    assert (NX' : next_block M blk' e = option_map (into c) (next_block M blk e)).
    { unfold next_block. rewrite TY, CO, JU, FA. destruct (String.eqb (cb_type blk) "conditional").
      - destruct (cb_cond blk); [|reflexivity]. destruct (value M e _); [|reflexivity]. destruct (o_truth M v); reflexivity.
      - destruct (cb_jump_to blk); reflexivity. }
    rewrite NX'. destruct (next_block M blk e) as [to|] eqn:NX; [|exact I]. cbn [option_map].
    assert (TO : cb_jump_to blk = Some to \/ cb_falls_to blk = Some to).
    { unfold next_block in NX. destruct (String.eqb (cb_type blk) "conditional"); [destruct (cb_cond blk); [|discriminate]; destruct (value M e _); [|discriminate]; destruct (o_truth M v); auto|].
      destruct (cb_jump_to blk); [left; exact NX|right; exact NX]. }
    destruct (FO to TO). apply goto_cut; auto.
  - destruct (here_tail c b i rest b' rest' HH) as (r & -> & HT); [apply NR; discriminate|]. cbn [ostep]. destruct (values M e (li_ins i)) as [args|]; [|exact I].
    pose proof (cu_args _ _ _ _ _ _ _ _ _ C (li_op i)) as QA. destruct (lookup (li_op i) (ob_functions ob)) as [k|] eqn:LF, (lookup (li_op i) (ob_functions ob')) as [k'|] eqn:LF'; cbn in QA; try discriminate.
    + injection QA as QA. rewrite QA. destruct (Nat.eqb (length (fn_args k)) (length args)); [|exact I].
      pose proof (cu_start _ _ _ _ _ _ _ _ _ C (Some (li_op i))) as QS. unfold start_at, blocks_at in QS. rewrite LF, LF' in QS. cbn [option_map] in QS.
      assert (S1 : cl_start (fn_blocks k') = option_map (into (Some (li_op i))) (cl_start (fn_blocks k))).
      { rewrite QS. unfold into. destruct (opt_eqb (Some (li_op i)) c0); [reflexivity|]. destruct (cl_start (fn_blocks k)); reflexivity. }
      rewrite S1. destruct (cl_start (fn_blocks k)) as [st0|] eqn:S0; [|exact I]. cbn [option_map].
      apply (goto_cut (Some (li_op i)) None None); [reflexivity| |]; [|constructor; [|exact FW]; now constructor].
      intros Q0. apply (cu_begin _ _ _ _ _ _ _ _ _ C). rewrite <- Q0. unfold start_at, blocks_at. rewrite LF. exact S0.
    + destruct (String.eqb (li_op i) "functionReturn").
      * inversion FW as [|k0 k1 cs cs' WA FW']; subst; [exact I|]. destruct WA as [cc bb rr oo ee bb' rr' HW]. cbn [sp_comp sp_block sp_rest sp_outs sp_vars].
        destruct (Nat.eqb (length oo) (length args)); [|exact I]. now constructor.
      * destruct (mem (li_op i) stopping); [constructor|]. destruct (o_do M i args w) as [vs w']. now constructor.
Qed.
End Cut.

Theorem cut_same ob ob' c0 id f s b L1 L2 : cut ob ob' c0 id f s b L1 L2 -> same_meaning ob ob'.
Proof.
  intros C V W M w. apply (lockstep M ob ob' (corr ob c0 id f s L2)).
  - intros st t H. eapply cut_lock; eauto.
  - unfold begins_at. pose proof (cu_start _ _ _ _ _ _ _ _ _ C None) as QS. unfold start_at, blocks_at in QS.
    assert (S1 : cl_start (ob_main ob') = option_map (into c0 id f None) (cl_start (ob_main ob))).
    { rewrite QS. unfold into. destruct (opt_eqb None c0); [reflexivity|]. destruct (cl_start (ob_main ob)); reflexivity. }
    rewrite S1. destruct (cl_start (ob_main ob)) as [st0|] eqn:S0; [|exact I]. cbn [option_map].
    apply (goto_cut ob ob' c0 id f s b L1 L2 C M None None None); [reflexivity| |constructor].
    intros Q. apply (cu_begin _ _ _ _ _ _ _ _ _ C). rewrite <- Q. exact S0.
Qed.
Theorem cut_does ob ob' c0 id f s b L1 L2 : cut ob ob' c0 id f s b L1 L2 -> does_the_same ob ob'.
Proof. intros C. exact (same_meaning_does _ _ (cut_same _ _ _ _ _ _ _ _ _ C)). Qed.
