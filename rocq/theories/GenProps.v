(** The driver of the synthesizer (C56). *)
From Verif Require Import Base Lexical LexicalProofs SymExecModel PermutModel.
From Verif Require CheckerSim GreedyTailModel GreedyTailProofs PlaceModel PlaceTree.
From Verif Require Import SearchModel SearchSpec SearchProps StoreSpec SearchIds TargetModel TargetSpec TargetProps GenModel GenSpec GenProofs.
Open Scope string_scope. Open Scope list_scope. Open Scope nat_scope.

(** What is stored for a block: a sequence that the validator accepts, with SWAP
    and DUP within reach of the machine. *)
Record served (b : gblock) (r : gresult) : Prop := {
  se_name : gr_name r = gb_name b;
  se_accepted : check_execution_from_ids (t_sfs (gb_spec b)) (gr_ids r) (gb_junk b) = Ok true;
  se_swap : forall id, In id (gr_ids r) -> startswith "SWAP" id = true -> exists k, py_int (sdrop 4 id) = Some k /\ (1 <= k <= 16)%Z;
  se_dup : forall id, In id (gr_ids r) -> startswith "DUP" id = true -> exists k, py_int (sdrop 3 id) = Some k /\ (1 <= k <= 16)%Z
}.
Lemma made_served fuel b r : made fuel b r -> served b r.
Proof.
  intros M. pose proof (made_depth _ _ _ M) as D. apply made_eq in M as (N & _ & A & _ & _). constructor; [exact N|exact A|..]; intros id Hid K.
  - destruct (GreedyTailProofs.check_dup_swap_depth _ _ D id Hid (or_introl K)) as (n & E & B).
    unfold GreedyTailProofs.depth_of in E. rewrite K in E. eauto.
  - destruct (GreedyTailProofs.check_dup_swap_depth _ _ D id Hid (or_intror K)) as (n & E & B).
    unfold GreedyTailProofs.depth_of in E. destruct (startswith "SWAP" id) eqn:S; [|rewrite K in E; eauto].
    exfalso. eapply (CheckerSim.prefix_clash "SWAP" "DUP" id); simpl; eauto; congruence.
Qed.
Lemma Forall2_impl' {A B} (P Q : A -> B -> Prop) l l' : (forall a b, P a b -> Q a b) -> Forall2 P l l' -> Forall2 Q l l'.
Proof. intros H F. induction F; constructor; auto. Qed.
Lemma Forall2_nth {A B} (P : A -> B -> Prop) l l' : Forall2 P l l' -> forall n a, nth_error l n = Some a -> exists b, nth_error l' n = Some b /\ P a b.
Proof. induction 1; intros [|n] a E; cbn in E; try discriminate; [injection E as <-; cbn; eauto|cbn; auto]. Qed.

(** No block is left out, whatever the nesting of objects: when the driver
    returns, each block of each block list has its sequence. *)
Theorem every_block_served fuel c out : cfg_ids fuel c = Ok out ->
  Forall2 (fun bs rep => Forall2 served bs (ge_blocks rep)) (block_lists c) (snd out).
Proof.
  intros E. apply cfg_reports in E as [F _]. eapply Forall2_impl'; [|exact F]. intros bs rep R.
  apply reported_blocks in R as [R _]. eapply Forall2_impl'; [|exact R]. apply made_served.
Qed.
Print Assumptions every_block_served.

(** What is asked of the specifications. *)
Definition all_given (c : gcfg) : Prop := forall b, In b (blocks_of c) -> well_given (gb_spec b) /\ no_register_names (gb_spec b).
Lemma in_report fuel c out rep r : cfg_ids fuel c = Ok out -> In rep (snd out) -> In r (ge_blocks rep) ->
  exists b, In b (blocks_of c) /\ made fuel b r.
Proof.
  intros E Hrep Hr. apply cfg_reports in E as [F _]. unfold blocks_of. set (bl := block_lists c) in *. clearbody bl. induction F as [|bs rep0 l l' R _ IH]; [destruct Hrep|].
  destruct Hrep as [-> |Hrep]; cbn [concat].
  - apply reported_blocks in R as [R _]. clear IH. revert r Hr. induction R as [|b0 r0 l0 l0' M _ IH]; intros r Hr; [destruct Hr|].
    destruct Hr as [<- |Hr]; [exists b0; split; [left; reflexivity|exact M]|]. destruct (IH r Hr) as (b1 & H1 & H2). exists b1. split; [right; exact H1|exact H2].
  - destruct (IH Hrep) as (b1 & H1 & H2). exists b1. split; [apply in_app_iff; auto|exact H2].
Qed.
Lemma report_facts fuel c out rep : cfg_ids fuel c = Ok out -> In rep (snd out) ->
  ge_repair rep = existsb gr_vget (ge_blocks rep) /\ ge_fix rep = fold_left (fun c r => PlaceModel.cplus c (gr_count r)) (ge_blocks rep) [].
Proof.
  intros E Hrep. apply cfg_reports in E as [F _]. induction F as [|bs rep0 l l' R _ IH]; [destruct Hrep|].
  destruct Hrep as [-> |Hrep]; [|auto]. apply reported_blocks in R. tauto.
Qed.
(** Only and all the block lists with a load of a value are repaired. *)
Theorem repaired_iff_loads fuel c out : cfg_ids fuel c = Ok out -> all_given c ->
  forall rep, In rep (to_repair out) <->
    In rep (snd out) /\ exists r id, In r (ge_blocks rep) /\ In id (gr_ids r) /\ loads id.
Proof.
  intros E G rep.
  assert (Flag : forall rep, In rep (snd out) -> (ge_repair rep = true <-> exists r id, In r (ge_blocks rep) /\ In id (gr_ids r) /\ loads id)).
  { intros rep' H. destruct (report_facts _ _ _ _ E H) as [-> _]. rewrite existsb_exists. split.
    - intros (r & Hr & V). destruct (in_report _ _ _ _ _ E H Hr) as (b & Hb & M). destruct (G b Hb) as [G1 G2].
      apply made_eq in M as Q. destruct Q as (_ & _ & _ & _ & Q). rewrite Q in V. apply (made_vget fuel b r M G1 G2) in V as (id & Hid & L). eauto.
    - intros (r & id & Hr & Hid & L). exists r. split; [exact Hr|]. destruct (in_report _ _ _ _ _ E H Hr) as (b & Hb & M). destruct (G b Hb) as [G1 G2].
      apply made_eq in M as Q. destruct Q as (_ & _ & _ & _ & ->). apply (made_vget fuel b r M G1 G2). eauto. }
  unfold to_repair. apply cfg_reports in E as [_ Ef]. rewrite Ef. split.
  - destruct (existsb ge_repair (snd out)); [|intros []]. intros H. apply filter_In in H as [H R]. split; [exact H|]. apply Flag; assumption.
  - intros [H L]. apply (Flag _ H) in L. replace (existsb ge_repair (snd out)) with true by (symmetry; apply existsb_exists; eauto).
    apply filter_In. auto.
Qed.
Print Assumptions repaired_iff_loads.
(** What is not repaired needs no repair: no value is loaded or saved. *)
Theorem unrepaired_without_registers fuel c out : cfg_ids fuel c = Ok out -> all_given c ->
  forall rep r id, In rep (snd out) -> ~ In rep (to_repair out) -> In r (ge_blocks rep) -> In id (gr_ids r) -> ~ loads id /\ ~ saves id.
Proof.
  intros E G rep r id Hrep NR Hr Hid. destruct (in_report _ _ _ _ _ E Hrep Hr) as (b & Hb & M). destruct (G b Hb) as [G1 G2].
  assert (V : has_vget (gr_ids r) = false).
  { destruct (has_vget (gr_ids r)) eqn:V; [|reflexivity]. exfalso. apply NR. apply (repaired_iff_loads _ _ _ E G). split; [exact Hrep|].
    apply (made_vget fuel b r M G1 G2) in V as (id' & H1 & H2). eauto. }
  destruct (made_none fuel b r M G1 G2 V id Hid) as [N1 N2]. split; intros (x & ->); discriminate.
Qed.
Print Assumptions unrepaired_without_registers.
(** The values that the repair is told to fix: each as often as it is loaded in
    a block where it has not been saved before. *)
Theorem values_to_fix_counted fuel c out : cfg_ids fuel c = Ok out -> all_given c ->
  forall rep x, In rep (snd out) ->
    PlaceModel.cget (ge_fix rep) x = list_sum (map (fun r => loads_before_save x (gr_ids r)) (ge_blocks rep)).
Proof.
  intros E G rep x Hrep. destruct (report_facts _ _ _ _ E Hrep) as [_ ->]. rewrite total_counts; [reflexivity|apply PlaceTree.cwf_nil|].
  intros r Hr. destruct (in_report _ _ _ _ _ E Hrep Hr) as (b & Hb & M). destruct (G b Hb) as [G1 G2]. split; [apply made_eq in M; tauto|].
  apply (made_id fuel b r M G1 G2).
Qed.
Print Assumptions values_to_fix_counted.
(** What is saved is loaded later in the same block. *)
Theorem saved_values_loaded fuel c out : cfg_ids fuel c = Ok out -> all_given c ->
  forall rep r pre x post, In rep (snd out) -> In r (ge_blocks rep) -> gr_ids r = pre ++ vset_id x :: post -> In (vget_id x) post.
Proof.
  intros E G rep r pre x post Hrep Hr. destruct (in_report _ _ _ _ _ E Hrep Hr) as (b & Hb & M). destruct (G b Hb) as [G1 G2].
  apply (made_fetched fuel b r M G1 G2).
Qed.
Print Assumptions saved_values_loaded.

(** ** The driver returns *)
(** Full property: the driver returns for every program.  Proved if the
    synthesizer finds a sequence for each block, the operations with effects have
    no result and only they are ordered. *)
Definition plain_effects (sp : spec) : Prop :=
  (forall i, In i (ops_of sp) -> i_storage i = true -> contains "GAS" (i_disasm i) = false -> i_outpt i = [])
  /\ (forall a b, In (a, b) (s_deps (t_sfs sp)) -> store (ops_of sp) a = true /\ store (ops_of sp) b = true).
Lemma for_each_total {A S} (f : S -> A -> result S) xs : (forall x s, In x xs -> exists s', f s x = Ok s') -> forall s, exists s', for_each f xs s = Ok s'.
Proof.
  induction xs as [|x xs IH]; intros H s; cbn [for_each]; [eauto|]. destruct (H x s (or_introl eq_refl)) as (s1 & ->). cbn [bind].
  apply IH. intros. apply H. right. assumption.
Qed.
Lemma list_total fuel bs : (forall b, In b bs -> exists r, made fuel b r) -> exists rep, blocklist_ids fuel bs = Ok rep.
Proof.
  intros H. unfold blocklist_ids. apply for_each_total. intros b s Hb. destruct (H b Hb) as (r & R). unfold made in R. rewrite R. cbn [bind]. eauto.
Qed.
Lemma cfg_total fuel c : (forall b, In b (blocks_of c) -> exists r, made fuel b r) -> exists out, cfg_ids fuel c = Ok out.
Proof.
  induction c as [os IHs] using gcfg_rect'. unfold blocks_of. rewrite cfg_ids_eq, block_lists_eq. generalize (false, @nil greport).
  induction os as [|[[n o] sub] os IH]; intros acc H; cbn [objects_ids]; [eauto|]. cbn [flat_map own_lists] in H.
  assert (Obj : exists r, object_ids fuel o = Ok r).
  { unfold object_ids. destruct (list_total fuel (gb_main o)) as (m & ->). { intros b Hb. apply H. cbn. apply in_app_iff. left. exact Hb. }
    cbn [bind]. apply for_each_total. intros f s Hf. destruct (list_total fuel (snd f)) as (r & ->); [|cbn; eauto].
    intros b Hb. apply H. rewrite concat_app, in_app_iff. left. cbn [concat]. rewrite in_app_iff. right. rewrite concat_app, in_app_iff. left.
    apply in_concat. exists (snd f). split; [apply in_map; exact Hf|exact Hb]. }
  destruct Obj as (r & ->). cbn [bind].
  assert (Rest : forall acc, exists out, objects_ids (cfg_ids fuel) fuel os acc = Ok out).
  { intros acc'. apply IH; [intros n' o' c' Q; apply (IHs n' o' c'); right; exact Q|]. intros b Hb. apply H. rewrite concat_app, in_app_iff. auto. }
  destruct sub as [c'|]; [|apply Rest]. destruct (IHs n o c' (or_introl eq_refl)) as (r' & ->).
  { intros b Hb. apply H. rewrite concat_app, in_app_iff. left. cbn [concat]. rewrite in_app_iff. right. rewrite concat_app, in_app_iff. right. exact Hb. }
  cbn [bind]. apply Rest.
Qed.
Theorem driver_returns_partial fuel c :
  (forall b, In b (blocks_of c) -> well_given (gb_spec b) /\ plain_effects (gb_spec b)
     /\ exists ops, greedy_from_json fuel 16 2 (gb_junk b) (gb_spec b) = Ok (Some ops)) ->
  exists out, cfg_ids fuel c = Ok out.
Proof.
  intros H. apply cfg_total. intros b Hb. destruct (H b Hb) as (G & [P1 P2] & ops & E). unfold made, block_ids, greedy_standalone. rewrite E.
  cbn [bind option_map of_option]. rewrite (validator_accepts_partial _ _ _ _ _ _ E G P1 P2). cbn [bind py_assert]. eauto.
Qed.
Print Assumptions driver_returns_partial.
(** One block for which the synthesizer gives up stops the compilation of the
    whole program, unless there is nothing to do in the block: an exception of the
    synthesizer leaves the empty sequence. *)
Theorem one_failure_stops_all fuel c b : In b (blocks_of c) ->
  (forall ops, greedy_from_json fuel 16 2 (gb_junk b) (gb_spec b) <> Ok (Some ops)) ->
  check_execution_from_ids (t_sfs (gb_spec b)) [] (gb_junk b) <> Ok true ->
  forall out, cfg_ids fuel c <> Ok out.
Proof.
  intros Hb E NE out R. apply cfg_reports in R as [F _]. unfold blocks_of in Hb. apply in_concat in Hb as (bs & Hbs & Hb).
  assert (Q : exists rep, reported fuel bs rep).
  { clear Hb. induction F as [|bs0 rep0 l l' R _ IH]; [destruct Hbs|]. destruct Hbs as [-> |Hbs]; [eauto|auto]. }
  destruct Q as (rep & R). apply reported_blocks in R as [R _].
  assert (Q : exists r, made fuel b r).
  { clear E Hbs. induction R as [|b0 r0 l0 l0' M _ IH]; [destruct Hb|]. destruct Hb as [-> |Hb]; [eauto|auto]. }
  destruct Q as (r & M). apply made_eq in M as (_ & S & A & _). apply standalone_cases in S as [S|(ops & S & _)]; [|exact (E ops S)].
  rewrite S in A. exact (NE A).
Qed.
Print Assumptions one_failure_stops_all.

(** ** A program with a sub-object *)
Module GenExample.
Definition words : list string := map (fun n => ("a" ++ str_nat n)%string) (seq 0 18).
Definition moving (tgt : list string) : spec :=
  {| t_sfs := {| s_src := words; s_tgt := tgt; s_instrs := []; s_deps := [] |};
     t_mem := []; t_sto := []; t_trans := []; t_size := (fun _ => 2%Z); t_gas := (fun _ => 3%Z) |}.
Definition block (n : string) (sp : spec) : gblock := {| gb_name := n; gb_spec := sp; gb_junk := false |}.
Definition plain_block := block "plain" TargetExample.sp2.
(** The word at the bottom of 18 copied to the top, then also the 18 reversed. *)
Definition fetching := block "fetching" (moving ("a17" :: words)).
Definition reversing := block "reversing" (moving (rev words)).
Definition inner : gcfg := GCfg [("inner", {| gb_main := [plain_block]; gb_functions := [("f", [plain_block; fetching; reversing; fetching])] |}, None)].
Definition program : gcfg := GCfg [("outer", {| gb_main := [plain_block; plain_block]; gb_functions := [] |}, Some inner)].
Definition out : bool * list greport := match cfg_ids 60 program with Ok o => o | _ => (false, []) end.
Lemma runs : cfg_ids 60 program = Ok out. Proof. vm_compute. reflexivity. Qed.
Example found : map (fun rep => (ge_repair rep, ge_fix rep)) (snd out) = [(false, []); (false, []); (true, [("a17", 2)])] /\ fst out = true
  /\ map (fun rep => map gr_name (ge_blocks rep)) (to_repair out) = [["plain"; "fetching"; "reversing"; "fetching"]].
Proof. vm_compute. auto. Qed.
Lemma given : all_given program.
Proof.
  intros b Hb. assert (Q : In b [plain_block; plain_block; plain_block; plain_block; fetching; reversing; fetching]) by exact Hb. clear Hb.
  assert (D : b = plain_block \/ b = fetching \/ b = reversing) by (cbn in Q; intuition). destruct D as [-> |[-> | ->]]; split;
    try (apply well_givenb_ok; vm_compute; reflexivity).
  all: intros i Hi; cbn in Hi; repeat (destruct Hi as [<- |Hi]; [vm_compute; auto|]); destruct Hi.
Qed.
Example every_block_served_applies : exists rep, nth_error (snd out) 2 = Some rep /\ Forall2 served [plain_block; fetching; reversing; fetching] (ge_blocks rep).
Proof.
  exact (Forall2_nth _ _ _ (every_block_served 60 program out runs) 2 _ eq_refl).
Qed.
Definition rep3 : greport := match nth_error (snd out) 2 with Some rep => rep | None => {| ge_blocks := []; ge_repair := false; ge_fix := [] |} end.
Lemma rep3_in : In rep3 (snd out).
Proof. apply (nth_error_In _ 2). vm_compute. reflexivity. Qed.
Example repaired_iff_loads_applies : exists r id, In r (ge_blocks rep3) /\ In id (gr_ids r) /\ loads id.
Proof. refine (proj2 (proj1 (repaired_iff_loads _ _ _ runs given rep3) _)). vm_compute. left. reflexivity. Qed.
Example values_to_fix_counted_applies : PlaceModel.cget (ge_fix rep3) "a17" = 2.
Proof. rewrite (values_to_fix_counted _ _ _ runs given _ _ rep3_in). vm_compute. reflexivity. Qed.
Example saved_values_loaded_applies : exists r post, In r (ge_blocks rep3) /\ gr_ids r = [] ++ vset_id "a0" :: post /\ In (vget_id "a0") post.
Proof.
  set (r := nth 2 (ge_blocks rep3) {| gr_name := ""; gr_ids := []; gr_count := []; gr_vget := false |}). exists r, (tl (gr_ids r)).
  assert (Hr : In r (ge_blocks rep3)) by (apply nth_In; vm_compute; repeat constructor).
  assert (E : gr_ids r = [] ++ vset_id "a0" :: tl (gr_ids r)) by (vm_compute; reflexivity).
  split; [exact Hr|]. split; [exact E|]. exact (saved_values_loaded _ _ _ runs given _ _ _ _ _ rep3_in Hr E).
Qed.
Example unrepaired_applies : forall r id, In r (ge_blocks (nth 0 (snd out) rep3)) -> In id (gr_ids r) -> ~ loads id /\ ~ saves id.
Proof.
  intros r id. refine (unrepaired_without_registers _ _ _ runs given (nth 0 (snd out) rep3) r id _ _).
  - apply nth_In. vm_compute. repeat constructor.
  - vm_compute. intros [H|[]]. discriminate.
Qed.
Example driver_returns_applies : exists o, cfg_ids 60 program = Ok o.
Proof.
  apply driver_returns_partial. intros b Hb. split; [apply (given b Hb)|].
  assert (Q : In b [plain_block; plain_block; plain_block; plain_block; fetching; reversing; fetching]) by exact Hb. clear Hb.
  assert (D : b = plain_block \/ b = fetching \/ b = reversing) by (cbn in Q; intuition). split.
  - destruct D as [-> |[-> | ->]]; split; try (intros ? []; fail); try (intros ? ? []; fail).
    + intros i Hi. cbn in Hi. repeat (destruct Hi as [<- |Hi]); try (destruct Hi); cbn; intros; try discriminate; reflexivity.
    + intros x y H. cbn in H. destruct H as [H|[H|[]]]; injection H as <- <-; split; vm_compute; reflexivity.
  - destruct D as [-> |[-> | ->]]; (destruct (greedy_from_json 60 16 2 (gb_junk _) (gb_spec _)) as [[ops|]|] eqn:E; [eauto|vm_compute in E; discriminate..]).
Qed.
(** A target with a word that nobody computes. *)
Definition hopeless := block "hopeless" (moving ["b"]).
Example one_failure_applies : forall o, cfg_ids 60 (GCfg [("outer", {| gb_main := [plain_block]; gb_functions := [("f", [hopeless])] |}, None)]) <> Ok o.
Proof.
  apply (one_failure_stops_all 60 _ hopeless); [right; left; reflexivity| |].
  - assert (Q : greedy_from_json 60 16 2 (gb_junk hopeless) (gb_spec hopeless) = Raise OtherError) by (vm_compute; reflexivity). rewrite Q. discriminate.
  - assert (Q : check_execution_from_ids (t_sfs (gb_spec hopeless)) [] (gb_junk hopeless) = Raise AssertionError) by (vm_compute; reflexivity). rewrite Q. discriminate.
Qed.
End GenExample.
