(** C42 and C41: the layouts chosen by the traversal are the ones the whole-program
    theorem asks for. *)
From Verif Require Import Base Lexical SymExecModel AsmModel MachineSpec FootprintSpec DepsModel GreedyTailModel SpecModel SpecSem SpecDce BlockSpec
  UtilModel UtilProps EmitModel ProgSem ProgSpec LiveModel CfgModel CfgProps LayoutModel LayoutProps UnifyModel LayoutGenModel LayoutGenSpec LayoutGenProofs
  LayoutGenTotal LayoutGenProps ProgExample.
Open Scope string_scope. Open Scope list_scope.

(** The translated component [k] has the blocks of [env], with the layouts [spec]. *)
Record same_component (env : layout_env) (spec : list (string * (list string * list string))) (k : tcomponent) : Prop := {
  sc_start : t_start k = le_start env;
  sc_params : t_params k = le_inputs env;
  sc_return : le_main env && le_junk env = true -> t_return k = None;
  sc_block : forall x tb, lookup x (t_blocks k) = Some tb -> exists b, block_at env x b /\ reached env x /\
    lookup x spec = Some (t_initial tb, t_final tb) /\ p_entries (t_block tb) = cb_entries b /\
    p_jump_to (t_block tb) = cb_jump_to b /\ p_falls_to (t_block tb) = cb_falls_to b /\
    Forall2 (fun p i => hd_error (li_outs i) = Some (fst p) /\ li_ins i = snd p) (p_phis (t_block tb)) (phi_instructions b)
}.
(** [dummy] lists the filler of the layouts, and nothing the blocks read. *)
Record fillers (dummy : list string) (k : tcomponent) : Prop := {
  fl_all : forall x tb u, lookup x (t_blocks k) = Some tb -> In u (t_initial tb) -> filler u -> In u dummy;
  fl_phis : forall x tb p, lookup x (t_blocks k) = Some tb -> In p (p_phis (t_block tb)) -> forall v, In v (snd p) -> ~ In v dummy;
  fl_params : NoDup (t_params k) /\ forall v, In v (t_params k) -> user_name v /\ ~ In v dummy
}.

Lemma index_of_NoDup x : forall xs n, NoDup xs -> nth_error xs n = Some x -> index_of x xs = Some n.
Proof.
  induction xs as [|y xs IH]; intros [|n] N H; cbn in *; try discriminate.
  - injection H as ->. now rewrite String.eqb_refl.
  - inversion N as [|? ? N1 N2]; subst. destruct (String.eqb_spec y x) as [->|_]; [exfalso; apply N1; eapply nth_error_In; eauto|]. now rewrite (IH n N2 H).
Qed.
Lemma phis_lookup : forall ps is, Forall2 (fun (p : string * list string) i => hd_error (li_outs i) = Some (fst p) /\ li_ins i = snd p) ps is ->
  NoDup (map (fun i => hd_error (li_outs i)) is) -> forall i u, In i is -> hd_error (li_outs i) = Some u -> lookup u ps = Some (li_ins i).
Proof.
  induction 1 as [|[u0 a0] i0 ps is [E1 E2] _ IH]; intros N i u I H; [destruct I|]. cbn [fst snd] in *. inversion N as [|? ? N1 N2]; subst. cbn [lookup].
  destruct I as [->|I].
  - rewrite E1 in H. injection H as ->. rewrite String.eqb_refl. reflexivity.
  - destruct (String.eqb_spec u0 u) as [->|_]; [|now apply IH]. exfalso. apply N1. rewrite E1, <- H. exact (in_map (fun i => hd_error (li_outs i)) is i I).
Qed.
Lemma phis_result : forall ps is, Forall2 (fun (p : string * list string) i => hd_error (li_outs i) = Some (fst p) /\ li_ins i = snd p) ps is ->
  forall u a, lookup u ps = Some a -> exists i, In i is /\ hd_error (li_outs i) = Some u.
Proof.
  induction 1 as [|[u0 a0] i0 ps is [E1 E2] _ IH]; intros u a H; [discriminate|]. cbn [lookup fst snd] in *.
  destruct (String.eqb_spec u0 u) as [->|_]; [exists i0; split; [now left|exact E1]|]. destruct (IH u a H) as (i & I & Q). exists i. split; [now right|exact Q].
Qed.
Lemma subst_dups_NoDup : forall l seen, NoDup l -> (forall x, In x l -> ~ In x seen) -> subst_dups seen l = l.
Proof.
  induction l as [|v l IH]; intros seen N H; [reflexivity|]. inversion N as [|? ? N1 N2]; subst. cbn [subst_dups].
  destruct (mem v seen) eqn:M; [exfalso; apply mem_In in M; exact (H v (or_introl eq_refl) M)|]. f_equal. apply IH; [exact N2|].
  intros x I [<-|Q]; [contradiction|]. exact (H x (or_intror I) Q).
Qed.
Lemma NoDup_prefix {A} (a b : list A) : NoDup (a ++ b) -> NoDup a.
Proof. induction a as [|x a IH]; intros N; [constructor|]. inversion N as [|? ? N1 N2]; subst. constructor; [intros I; apply N1, in_app_iff; now left|auto]. Qed.

(** The conditions of C41 on layouts hold of the chosen layouts. *)
Theorem chosen_layouts_agree : forall env lv st k dummy, component_ok env lv -> tables_ok env lv ->
  construct_code_from_block_list env lv = Ok st -> same_component env (ly_spec st) k -> fillers dummy k ->
  (forall b tb b' tb', lookup b (t_blocks k) = Some tb -> (p_jump_to (t_block tb) = Some b' \/ p_falls_to (t_block tb) = Some b') ->
    lookup b' (t_blocks k) = Some tb' ->
    layouts_agree dummy (match t_return k with None => true | Some _ => false end) (Some b) (t_final tb) tb')
  /\ (forall tb, lookup (t_start k) (t_blocks k) = Some tb -> NoDup (t_params k) /\ (forall p, In p (t_params k) -> user_name p) /\
    layouts_agree dummy (match t_return k with None => true | Some _ => false end) None (t_params k) tb).
Proof.
  intros env lv st k dummy OK TB E SC FL. pose proof (traversal_fits env lv OK st E) as FIT. split.
  - intros x tb s tb' Lx Ed Ls. destruct (sc_block _ _ _ SC x tb Lx) as (b & Bx & Rx & Sx & _ & Ej & Ef & _).
    destruct (sc_block _ _ _ SC s tb' Ls) as (sb & Bs & _ & Ss & Een & _ & _ & Ph).
    assert (Is : In s (successors b)).
    { unfold successors. rewrite <- Ej, <- Ef. apply in_app_iff. destruct Ed as [->| ->]; [left|right]; now left. }
    destruct (fit_edges _ _ _ FIT x b s sb _ _ _ _ Rx Bx Is Bs Sx Ss) as (keep & rest & Ek & Jr & F2).
    exists keep, rest. split; [exact Ek|]. split.
    { intros N. apply Jr. destruct (le_main env && le_junk env) eqn:J; [|reflexivity]. rewrite (sc_return _ _ _ SC J) in N. discriminate. }
    assert (G : forall v u, In u (t_initial tb') -> carried sb x v u ->
      passes dummy (p_phis (t_block tb')) (index_of x (p_entries (t_block tb'))) v u).
    { intros v u Iu C. destruct (in_dec string_dec u dummy) as [|Nu]; [now left|]. destruct C as [F|[(i & n & Ii & Hu & Hn & Hv)|(Np & ->)]].
      - left. exact (fl_all _ _ FL s tb' u Ls Iu F).
      - right. destruct (ok_phis _ _ OK _ _ _ Bs Ii) as (Ne & _ & _ & Nb & _). pose proof (nth_error_In _ _ Hv) as Iv.
        pose proof (phis_lookup _ _ Ph (ok_phi_outs _ _ OK _ _ Bs) i u Ii Hu) as Lu.
        split; [intros ->; contradiction|]. split; [exact (fl_phis _ _ FL s tb' (u, li_ins i) Ls (lookup_In _ _ _ Lu) v Iv)|].
        rewrite Lu. exists n. split; [|exact Hv]. rewrite Een. apply index_of_NoDup; [|exact Hn].
        destruct (ok_entries _ _ OK _ _ Bs) as [Q|(Q & _)]; [contradiction|exact Q].
      - right. split; [intros ->; apply Nu; apply (fl_all _ _ FL s tb' "bottom" Ls Iu); now left|]. split; [exact Nu|].
        destruct (lookup v (p_phis (t_block tb'))) as [a|] eqn:Lv; [|reflexivity]. exfalso. apply Np. destruct (phis_result _ _ Ph v a Lv) as (i & Ii & Hi). exists i. auto. }
    clear - F2 G. induction F2 as [|v u vs us C F2 IH]; constructor; [apply G; [now left|exact C]|]. apply IH. intros; apply G; [now right|assumption].
  - intros tb Ls. destruct (fl_params _ _ FL) as (ND & Pn). split; [exact ND|]. split; [intros p Ip; apply (Pn p Ip)|].
    destruct (sc_block _ _ _ SC _ tb Ls) as (b & Bx & Rx & Sx & _ & _ & _ & Ph). rewrite (sc_start _ _ _ SC) in *.
    destruct (fit_start _ _ _ FIT) as (f & kept & dropped & Ei & Jr & Sf). rewrite Sx in Sf. injection Sf as Ti Tf.
    rewrite (sc_params _ _ _ SC) in *. exists kept, dropped. split; [exact Ei|]. split.
    { intros N. apply Jr. destruct (le_main env && le_junk env) eqn:J; [|reflexivity]. rewrite (sc_return _ _ _ SC J) in N. discriminate. }
    rewrite Ti. rewrite Ei in ND. apply NoDup_prefix in ND. unfold substitute_duplicates. rewrite subst_dups_NoDup; [|now apply NoDup_rev|intros x _ []]. rewrite rev_involutive.
    assert (Np : p_phis (t_block tb) = []).
    { destruct (phi_instructions b) as [|i is] eqn:Pi; [inversion Ph; reflexivity|].
      destruct (ok_phis _ _ OK _ _ i Bx) as (_ & J & _); [rewrite Pi; now left|]. destruct (tb_start _ _ TB) as (b' & B' & C'). unfold block_at in *. rewrite Bx in B'. injection B' as <-.
      unfold join in J. rewrite C' in J. cbn in J. lia. }
    assert (G : forall v, In v kept -> passes dummy (p_phis (t_block tb)) None v v).
    { intros v Iv. right. destruct (Pn v) as (Un & Nd); [rewrite Ei; apply in_app_iff; now left|]. split; [|split; [exact Nd|rewrite Np; reflexivity]].
      exact (proj1 (proj2 Un)). }
    clear - G. induction kept as [|v l IH]; constructor; [apply G; now left|]. apply IH. intros; apply G; now right.
Qed.
Print Assumptions chosen_layouts_agree.

(** The main component of the example of C41, with the layouts used there. *)
Definition countdown_cblocks : list (string * cblock) :=
  [ ("Block0", blk [li "LiteralAssignment" ["0x03"] ["n"]] None "falls_to" None (Some "Loop") [] []);
    ("Loop", blk [li "PhiFunction" ["n"; "y"] ["x"]; li "iszero" ["x"] ["c"]; li "PUSH [tag]" [] ["1"]] (Some (li "JUMPI" ["1"; "c"] [])) "conditional"
               (Some "Exit") (Some "Body") ["Block0"; "Next"] ["Block0"; "Next"]);
    ("Body", blk [li "PUSH [tag]" [] ["2"]; li "PUSH [tag]" [] ["3"]] (Some (li "f" ["2"; "x"; "3"] ["y"])) "sub_block" None (Some "Next") ["Loop"] ["Loop"]);
    ("Next", blk [li "PUSH [tag]" [] ["4"]] (Some (li "JUMP" ["4"] [])) "unconditional" (Some "Loop") None ["Body"] ["Body"]);
    ("Exit", blk [li "sstore" ["0x00"; "x"] []] (Some (li "stop" [] [])) "terminal" None None ["Loop"] ["Loop"]) ].
Definition countdown_live : lives :=
  [ ("Block0", live_of [] ["n"]); ("Loop", live_of ["x"] ["x"]); ("Body", live_of ["x"] ["y"]); ("Next", live_of ["y"] ["y"]); ("Exit", live_of ["x"] []) ].
Definition countdown_env := {|
  le_blocks := countdown_cblocks; le_start := "Block0"; le_previous := fun _ => ""; le_inputs := []; le_main := true; le_junk := true; le_loops := ["Loop"; "Body"; "Next"];
  le_order := map (fun nb => (fst nb, [])) countdown_cblocks; le_depth := [("Block0", 0); ("Loop", 1); ("Body", 2); ("Exit", 2); ("Next", 3)];
  le_path := fun a b => if (String.eqb a "Block0" && String.eqb b "Next")%bool then Some ["Block0"; "Loop"; "Body"; "Next"] else None;
  le_succs := fun x => match lookup x countdown_cblocks with Some b => CfgModel.successors b | None => [] end;
  le_preds := fun x => match lookup x countdown_cblocks with Some b => cb_comes_from b | None => [] end |}.
Ltac cd_block H := unfold block_at in H; apply lookup_In in H; cbn [le_blocks countdown_env countdown_cblocks In] in H;
  repeat match type of H with _ \/ _ => destruct H as [H|H] end; try contradiction; injection H as ? ?; subst.
Lemma countdown_component : component_ok countdown_env countdown_live.
Proof.
  constructor.
  - cbn. repeat constructor; cbn; intuition discriminate.
  - intros x b s B I. cd_block B; each_in I; eexists; (split; [reflexivity|cbn; auto]).
  - intros x b p B I. cd_block B; each_in I; eexists; (split; [reflexivity|cbn; auto]).
  - intros x b B. cd_block B; cbn; repeat constructor; cbn; intuition discriminate.
  - intros x b B. cd_block B; cbn; intuition discriminate.
  - intros x b s1 b1 s2 b2 B I1 I2 B1 B2 J1 J2. cd_block B; each_in I1; each_in I2; try reflexivity; exfalso; unfold block_at in B1, B2; cbn in B1, B2;
      injection B1 as <-; injection B2 as <-; unfold join in J1, J2; cbn in J1, J2; lia.
  - intros x b B. cd_block B; cbn; auto; right; (split; [repeat constructor; cbn; intuition discriminate|tauto]).
  - intros x b i B I. cd_block B; each_in I; (split; [discriminate|]); (split; [unfold join; cbn; lia|]); (split; [reflexivity|]);
      (split; [cbn; intuition discriminate|]); eexists; (split; [reflexivity|apply not_reserved; reflexivity]).
  - intros x b B. cd_block B; cbn; repeat constructor; cbn; tauto.
  - intros x b B. cd_block B; eexists; (split; [reflexivity|]); (split; [cbn; repeat constructor; cbn; intuition discriminate|]);
      (split; [cbn; repeat constructor; cbn; intuition discriminate|]); (split; [intros u (i & Ii & Hu); each_in Ii; cbn in Hu; injection Hu as <-; cbn; auto|]);
      intros v Iv; each_in Iv; (split; [apply not_reserved; reflexivity|discriminate]).
  - intros x l L. apply lookup_In in L. each_in L; injection L as <- <-; split; reflexivity.
  - intros x b s sb lx ls B I Bs J Lx Ls. cd_block B; each_in I; unfold block_at in Bs; cbn in Bs; injection Bs as <-; try (exfalso; apply J; unfold join; cbn; lia);
      cbn in Lx, Ls; injection Lx as <-; injection Ls as <-; intros v Iv; each_in Iv; cbn; auto.
  - intros x b s sb t tb lt u B I Bs P It N Bt Lt Iu. destruct P as (i & Ii & Hu).
    cd_block B; each_in I; each_in It; try congruence; unfold block_at in Bs; cbn in Bs; injection Bs as <-; each_in Ii; cbn in Hu; injection Hu as <-;
      cbn in Lt; injection Lt as <-; each_in Iu; discriminate.
  - intros l L. cbn in L. injection L as <-. intros v [].
Qed.
Lemma countdown_tables : tables_ok countdown_env countdown_live.
Proof.
  constructor.
  - eexists. split; reflexivity.
  - intros x b B. cd_block B; eexists; reflexivity.
  - intros x b B. cd_block B; eexists; reflexivity.
  - intros a b p H. cbn [le_path countdown_env] in H. destruct (String.eqb a "Block0" && String.eqb b "Next")%bool eqn:E; [|discriminate].
    apply andb_true_iff in E as (E & E2). apply String.eqb_eq in E, E2. subst. injection H as <-. split; reflexivity.
  - intros x b p B I. cd_block B; each_in I; eexists; reflexivity.
  - cbn. repeat constructor; cbn; intuition discriminate.
Qed.
(** n := 3; while (n != 0) { n := f(n) }; sstore(0, n); stop. *)
Definition plain_main : tcomponent := {| t_params := []; t_return := None; t_start := "Block0"; t_regs := []; t_blocks :=
  [ ("Block0", t_of {| p_phis := []; p_entries := []; p_instrs := [cfg_ins "LiteralAssignment" ["0x03"] ["n"]]; p_last := None;
       p_type := "falls_to"; p_jump_to := None; p_falls_to := Some "Loop" |} [] ["n"] ["n"] ["PUSH_0"] true [] []);
    ("Loop", t_of b_loop ["x"] ["x"] ["1"; "c"; "x"] ["DUP1"; "ISZERO_0"; "PUSH [TAG]_0"] true [] []);
    ("Body", t_of b_body ["x"] ["y"] ["2"; "x"; "3"] ["PUSH [TAG]_1"; "SWAP1"; "PUSH [TAG]_0"] true [] []);
    ("Next", t_of b_next ["y"] ["y"] ["4"; "y"] ["PUSH [TAG]_0"] true [] []);
    ("Exit", t_of {| p_phis := []; p_entries := ["Loop"]; p_instrs := [cfg_ins "sstore" ["0x00"; "x"] []];
       p_last := Some (cfg_ins "stop" [] []); p_type := "terminal"; p_jump_to := None; p_falls_to := None |} ["x"] ["x"] ["x"] ["DUP1"; "PUSH0_0"; "SSTORE_0"] true [] []) ] |}.
Example chosen_layouts_hyps : exists st, construct_code_from_block_list countdown_env countdown_live = Ok st
  /\ same_component countdown_env (ly_spec st) plain_main /\ fillers [] plain_main.
Proof.
  eexists. split; [vm_compute; reflexivity|]. split.
  - constructor; [reflexivity|reflexivity|reflexivity|].
    assert (R0 : reached countdown_env "Block0") by constructor.
    assert (R1 : reached countdown_env "Loop") by (eapply reached_step; [exact R0|reflexivity|now left]).
    assert (R2 : reached countdown_env "Exit") by (eapply reached_step; [exact R1|reflexivity|now left]).
    assert (R3 : reached countdown_env "Body") by (eapply reached_step; [exact R1|reflexivity|right; now left]).
    assert (R4 : reached countdown_env "Next") by (eapply reached_step; [exact R3|reflexivity|now left]).
    intros x tb L. apply lookup_In in L. cbn [plain_main t_blocks In] in L.
    repeat match type of L with _ \/ _ => destruct L as [L|L] end; try contradiction; injection L as ? ?; subst;
      eexists; (split; [reflexivity|]); (split; [assumption|]); (split; [reflexivity|]); (split; [reflexivity|]); (split; [reflexivity|]); (split; [reflexivity|]);
      cbn [t_block t_of p_phis]; repeat constructor.
  - constructor.
    + intros x tb u L I F. exfalso. apply lookup_In in L. cbn [plain_main t_blocks In] in L.
      repeat match type of L with _ \/ _ => destruct L as [L|L] end; try contradiction; injection L as ? ?; subst; cbn [t_initial t_of In] in I;
        repeat match type of I with _ \/ _ => destruct I as [I|I] end; try contradiction; subst;
        destruct F as [F|[(i & F)|(i & F)]]; discriminate.
    + intros x tb p _ _ v _ [].
    + split; [constructor|intros v []].
Qed.
