(** What the parser gives to the passes: a parsed object satisfies the conditions
    of the passes ([object_ok]) if the file is written as solc writes it. *)
From Coq Require Import Permutation.
From Verif Require Import Base Lexical SymExecModel AsmModel DepsModel SpecModel SpecProofs LexicalProofs UtilModel UtilProps UnifyProps LiveModel CfgModel CfgSpec CfgProps ParseProps JumpModel JumpSpec ObjSem ParseModel ParseSpec ParseProofs ParseTranslate ParseComponent ParseSim.
Notation lookup := UtilModel.lookup.
Notation successors := CfgModel.successors.
Notation block_name := ParseModel.block_name.
Notation component := JumpSpec.component.
Open Scope string_scope. Open Scope list_scope.

(** ** The files considered *)
Record plain_component (functions : list string) (o : jobject) (c : option string) : Prop := {
  (* the blocks are called Block0, Block1, ... and can be reached *)
  pc_ids : forall x b, jblock_at o c x = Some b -> exists n, x = ("Block" ++ str_nat n)%string;
  pc_reached : forall x b, jblock_at o c x = Some b -> jreached o c x;
  (* no block jumps to itself, the two targets of a conditional jump differ, and other exits have no target but the block *)
  pc_jumps : forall x b e, jblock_at o c x = Some b -> js_exit b = Some e -> jx_type e = Some "Jump" -> exists t, jx_targets e = [t] /\ t <> x;
  pc_conds : forall x b e, jblock_at o c x = Some b -> js_exit b = Some e -> jx_type e = Some "ConditionalJump" -> exists f t, jx_targets e = [f; t] /\ f <> t /\ f <> x /\ t <> x;
  pc_others : forall x b e, jblock_at o c x = Some b -> js_exit b = Some e -> ~ In (jx_type e) [Some "Jump"; Some "ConditionalJump"] -> incl (jx_targets e) [x];
  (* the entries of a block lead to it *)
  pc_entries : forall x b y, jblock_at o c x = Some b -> In y (js_entries b) -> exists b' e, jblock_at o c y = Some b' /\ js_exit b' = Some e /\ In x (continues e);
  (* execution stops at the end of blocks *)
  pc_leaving : forall x b e pre i post, jblock_at o c x = Some b -> js_exit b = Some e -> jinstrs b = pre ++ i :: post -> In (operation i) ["return"; "revert"; "stop"; "selfdestruct"] ->
    post = [] /\ ~ In (jx_type e) [Some "Jump"; Some "ConditionalJump"; Some "FunctionReturn"];
  pc_plain : forall x b i, jblock_at o c x = Some b -> In i (jinstrs b) -> ~ In (operation i) ["JUMP"; "JUMPI"]
    /\ (In (operation i) functions -> forall v, In v (operands i) -> numeral v = false);
  (* the main code does not return, and the name for the return address is free *)
  pc_returns : forall x b e, jblock_at o c x = Some b -> js_exit b = Some e -> jx_type e = Some "FunctionReturn" -> exists f, c = Some f /\ ~ In ("out_" ++ f)%string (listed (jx_returns e))
}.
Record plain_file (name : string) (o : jobject) : Prop := {
  pf_components : forall c, known o c -> plain_component (map fst (jo_functions o)) o c;
  pf_names : ~ In name (map fst (jo_functions o)) /\ forall f, In f (map fst (jo_functions o)) -> ~ In f ["PUSH [tag]"; "JUMP"; "JUMPI"]
}.

(** ** Links *)
Lemma for_each_keeps {A B} (f : A -> B -> result A) (P : A -> Prop) : (forall s a s', P s -> f s a = Ok s' -> P s') -> forall l s s', P s -> for_each f l s = Ok s' -> P s'.
Proof. intros H. induction l as [|a l IH]; intros s s' Ps E; cbn [for_each] in E; [congruence|]. destruct (f s a) as [s1|] eqn:E1; [|discriminate]. cbn [bind] in E. eapply IH; [|exact E]. eapply H; eassumption. Qed.

Definition framed (k k' : cblock) : Prop :=
  cb_type k' = cb_type k /\ cb_jump_to k' = cb_jump_to k /\ cb_falls_to k' = cb_falls_to k /\ cb_cond k' = cb_cond k /\ cb_comes_from k' = cb_comes_from k /\ cb_entries k' = cb_entries k.
Definition frames (g g' : clist) : Prop :=
  (map fst (cl_blocks g') = map fst (cl_blocks g) /\ cl_start g' = cl_start g /\ cl_terminal g' = cl_terminal g /\ cl_return g' = cl_return g)
  /\ forall x k, lookup x (cl_blocks g) = Some k -> exists k', lookup x (cl_blocks g') = Some k' /\ framed k k'.
Lemma framed_refl k : framed k k. Proof. repeat split. Qed.
Lemma frames_refl g : frames g g. Proof. split; [repeat split|]. intros x k L. exists k. split; [exact L|apply framed_refl]. Qed.
Lemma frames_back g g' x k' : frames g g' -> lookup x (cl_blocks g') = Some k' -> exists k, lookup x (cl_blocks g) = Some k /\ framed k k'.
Proof.
  intros ((K & _) & F) L. assert (I : In x (map fst (cl_blocks g))) by (rewrite <- K; eapply lookup_In_key; exact L). apply key_lookup in I as (k & Lk).
  destruct (F _ _ Lk) as (k1 & L1 & Fr). exists k. split; [exact Lk|]. congruence.
Qed.
Lemma frames_put g g' y k k1 k1' : frames g g' -> lookup y (cl_blocks g) = Some k -> framed k1 k1' -> frames (put_block y k1 g) (put_block y k1' g').
Proof.
  intros ((K & S & T & R) & F) L Fr. assert (I : In y (map fst (cl_blocks g))) by (eapply lookup_In_key; exact L). assert (I' : In y (map fst (cl_blocks g'))) by (rewrite K; exact I).
  destruct (put_shape y k1 g I) as (A1 & A2 & A3 & A4). destruct (put_shape y k1' g' I') as (B1 & B2 & B3 & B4). split; [repeat split; congruence|].
  intros x k0 L0. cbn [put_block cl_blocks] in L0 |- *. rewrite lookup_dict_set in L0 |- *. destruct (String.eqb y x); [|apply F; exact L0]. injection L0 as <-. exists k1'. split; [reflexivity|exact Fr].
Qed.
Lemma translate_frames keys self todo g st r : for_each (translate_step keys self) todo (g, st) = Ok r -> frames g (fst r).
Proof.
  apply (for_each_keeps _ (fun s => frames g (fst s))); [|apply frames_refl]. intros [s i] x [s' i'] F E. cbn [fst] in *. unfold translate_step in E. cbn [fst snd] in E. unfold get_block in E.
  destruct (lookup x (cl_blocks s)) as [b|] eqn:L; [|discriminate]. cbn [of_option bind] in E. destruct (translate_instrs keys self i (cb_instrs b)) as [t|]; [|discriminate]. cbn [bind] in E. injection E as <- _.
  destruct F as ((K & S & T & R) & F). assert (I : In x (map fst (cl_blocks s))) by (eapply lookup_In_key; exact L). destruct (put_shape x (set_instrs (fst t) b) s I) as (A1 & A2 & A3 & A4).
  split; [repeat split; congruence|]. intros y k Ly. cbn [put_block cl_blocks]. rewrite lookup_dict_set. destruct (String.eqb_spec x y) as [->|]; [|apply F; exact Ly].
  destruct (F _ _ Ly) as (k' & L' & Fr). rewrite L in L'. injection L' as <-. eexists. split; [reflexivity|]. exact Fr.
Qed.
Lemma update_frames d : forall g g' h, frames g g' -> update_comes_from d g = Ok h -> exists h', update_comes_from d g' = Ok h' /\ frames h h'.
Proof.
  unfold update_comes_from. induction d as [|[y ps] d IH]; intros g g' h F E; cbn [for_each] in E |- *; [injection E as <-; exists g'; auto|]. cbn [fst snd] in E |- *.
  match type of E with bind (for_each ?f ps g) _ = _ => destruct (for_each f ps g) as [g1|] eqn:E1; [|discriminate]; assert (In_ : exists g1', for_each f ps g' = Ok g1' /\ frames g1 g1') end.
  { clear IH E. revert g g' F E1. induction ps as [|p ps IHp]; intros g g' F E1; cbn [for_each] in E1 |- *; [injection E1 as <-; exists g'; auto|].
    destruct (String.eqb y p); cbn [bind] in E1 |- *; [eapply IHp; eassumption|]. unfold get_block in E1 at 1. unfold get_block at 1. destruct (lookup y (cl_blocks g)) as [k|] eqn:L; [|discriminate].
    destruct (proj2 F _ _ L) as (k' & L' & Fr). rewrite L'. cbn [of_option bind] in E1 |- *. eapply IHp; [|exact E1]. eapply frames_put; [exact F|exact L|].
    destruct Fr as (F1 & F2 & F3 & F4 & F5 & F6). repeat split; cbn; congruence. }
  destruct In_ as (g1' & E1' & F1). rewrite E1'. cbn [bind] in E |- *. eapply IH; eassumption.
Qed.
Lemma frames_consistent g g' : frames g g' -> consistent g -> consistent g'.
Proof.
  intros F [CK CL CE CS CT CR]. pose proof F as ((K & S & T & R) & Fw).
  assert (Sc : forall k k', framed k k' -> successors k' = successors k) by (intros k k' (_ & J & Fl & _); unfold CfgModel.successors; congruence).
  assert (N : forall x, lookup x (cl_blocks g) = None -> lookup x (cl_blocks g') = None) by (intros x; rewrite !lookup_None, K; auto).
  assert (D : forall a b, departures g' a b = departures g a b).
  { intros a b. unfold departures. destruct (lookup a (cl_blocks g)) as [k|] eqn:L; [|rewrite (N _ L); reflexivity]. destruct (Fw _ _ L) as (k' & L' & Fr). rewrite L', (Sc _ _ Fr). reflexivity. }
  assert (A : forall a b, arrivals g' a b = arrivals g a b).
  { intros a b. unfold arrivals. destruct (lookup b (cl_blocks g)) as [k|] eqn:L; [|rewrite (N _ L); reflexivity]. destruct (Fw _ _ L) as (k' & L' & Fr). rewrite L'. destruct Fr as (_ & _ & _ & _ & -> & _). reflexivity. }
  assert (H : forall ts x, has_type ts g' x <-> has_type ts g x).
  { intros ts x. split; intros (k & L & I).
    - destruct (frames_back _ _ _ _ F L) as (k0 & L0 & (Ty & _)). exists k0. split; [exact L0|]. now rewrite <- Ty.
    - destruct (Fw _ _ L) as (k' & L' & (Ty & _)). exists k'. split; [exact L'|]. now rewrite Ty. }
  constructor.
  - now rewrite K.
  - intros a b. now rewrite A, D.
  - intros x k L. destruct (frames_back _ _ _ _ F L) as (k0 & L0 & (_ & _ & _ & _ & -> & ->)). exact (CE _ _ L0).
  - rewrite S, K. exact CS.
  - intros x. rewrite T, H. apply CT.
  - intros x. rewrite R, H. apply CR.
Qed.

(** ** Only conditional jumps test something, and the split instruction of a parsed
    block is the return at its end *)
Definition split_fine (k : cblock) : Prop := (cb_cond k <> None -> cb_type k = "conditional")
  /\ forall i, cb_split k = Some i -> li_op i = "functionReturn" /\ exists pre, cb_instrs k = pre ++ [i].
Definition unsplit (g : clist) : Prop := forall x k, lookup x (cl_blocks g) = Some k -> split_fine k.
Lemma unsplit_put g y k : unsplit g -> split_fine k -> unsplit (put_block y k g).
Proof. intros U S x k0 L. cbn [put_block cl_blocks] in L. rewrite lookup_dict_set in L. destruct (String.eqb y x); [injection L as <-; exact S|exact (U _ _ L)]. Qed.
Lemma update_unsplit d g h : unsplit g -> update_comes_from d g = Ok h -> unsplit h.
Proof.
  intros U. unfold update_comes_from. apply for_each_keeps; [|exact U]. clear. intros g [y ps] h U. cbn [fst snd]. apply for_each_keeps; [|exact U]. clear. intros g p h U E. destruct (String.eqb y p); [injection E as <-; exact U|].
  unfold get_block in E. destruct (lookup y (cl_blocks g)) as [k|] eqn:L; [|discriminate]. cbn in E. injection E as <-. apply unsplit_put; [exact U|]. exact (U _ _ L).
Qed.
Lemma update_returns d g h : update_comes_from d g = Ok h -> cl_return h = cl_return g.
Proof.
  unfold update_comes_from. apply (for_each_keeps _ (fun s => cl_return s = cl_return g)); [|reflexivity]. clear. intros s [y ps] h U E. cbn [fst snd] in E. rewrite <- U. revert E. apply (for_each_keeps _ (fun s' => cl_return s' = cl_return s)); [|reflexivity].
  clear. intros s' p h U E. destruct (String.eqb y p); [injection E as <-; exact U|]. destruct (get_block y s') as [k|]; [|discriminate]. cbn in E. injection E as <-. exact U.
Qed.
Lemma translate_last keys self pre i : li_op i = "functionReturn" -> forall st r, translate_instrs keys self st (pre ++ [i]) = Ok r -> exists pre', fst r = pre' ++ [i].
Proof.
  intros O. induction pre as [|a pre IH]; intros st r E; cbn [app translate_instrs] in E.
  - unfold translate_opcode in E. rewrite O in E. cbn in E. injection E as <-. exists []. reflexivity.
  - destruct (translate_opcode keys self st a) as [p|]; [|discriminate]. cbn [bind] in E. destruct (translate_instrs keys self (snd p) (pre ++ [i])) as [q|] eqn:Q; [|discriminate]. cbn [bind] in E. injection E as <-.
    destruct (IH _ _ Q) as (pre' & H). exists (fst p :: pre'). cbn [fst]. rewrite H. reflexivity.
Qed.
Lemma translate_unsplit keys self todo g st r : unsplit g -> for_each (translate_step keys self) todo (g, st) = Ok r -> unsplit (fst r).
Proof.
  intros U. apply (for_each_keeps _ (fun s => unsplit (fst s))); [|exact U]. clear. intros [s i] x [s' i'] U E. cbn [fst] in *. unfold translate_step in E. cbn [fst snd] in E. unfold get_block in E.
  destruct (lookup x (cl_blocks s)) as [b|] eqn:L; [|discriminate]. cbn [of_option bind] in E. destruct (translate_instrs keys self i (cb_instrs b)) as [t|] eqn:T; [|discriminate]. cbn [bind] in E. injection E as <- _.
  apply unsplit_put; [exact U|]. split; [exact (proj1 (U _ _ L))|]. intros j J. cbn in J |- *. destruct (proj2 (U _ _ L) j J) as (O & pre & Q). split; [exact O|]. rewrite Q in T. eapply translate_last; eassumption.
Qed.
Lemma jump_info_unsplit j t k : set_jump_info j t = Ok k -> split_fine k.
Proof.
  unfold set_jump_info. destruct (String.eqb _ _).
  - destruct (nth_error _ 0); [|discriminate]. destruct (nth_error _ 1); [|discriminate]. destruct (j_cond j); [|discriminate]. cbn. intros E. injection E as <-. split; [reflexivity|]. intros i Q. discriminate.
  - destruct (String.eqb _ _); [destruct (nth_error _ 0); [|discriminate]; cbn; intros E; injection E as <-; (split; [intros Q; destruct Q; reflexivity|]); intros i Q; discriminate|].
    repeat match goal with |- context [if ?b then _ else _] => destruct b end; intros E; injection E as <-; (split; [intros Q; destruct Q; reflexivity|]); intros i Q; try discriminate. cbn in Q. injection Q as <-. split; [reflexivity|]. eexists. reflexivity.
Qed.
Lemma parse_returns t js : forall g d r, NoDup (map j_id js) -> (forall x, In x (map j_id js) -> ~ In x (cl_return g)) -> NoDup (cl_return g) ->
  for_each (CfgModel.parse_step t) js (g, d) = Ok r -> NoDup (cl_return (fst r)).
Proof.
  induction js as [|j js IH]; intros g d r ND Fr N E; cbn [for_each] in E; [injection E as <-; exact N|]. cbn [map] in ND, Fr. inversion ND as [|? ? N1 N2]; subst. unfold CfgModel.parse_step in E at 1. cbn [fst snd] in E.
  destruct (set_jump_info j t) as [k|]; [|discriminate]. cbn [bind] in E. unfold add_block in E at 1. destruct (py_assert _); [|discriminate]. cbn [bind] in E. eapply IH; [exact N2| | |exact E]; cbn [cl_return].
  - intros x Ix. destruct (String.eqb (cb_type k) "FunctionReturn"); [|apply Fr; right; exact Ix]. intros H. apply in_app_iff in H as [H|[H|[]]]; [exact (Fr x (or_intror Ix) H)|]. subst x. contradiction.
  - destruct (String.eqb (cb_type k) "FunctionReturn"); [|exact N]. apply (Permutation_NoDup (Permutation_cons_append _ _)). constructor; [apply Fr; left; reflexivity|exact N].
Qed.
Lemma parse_unsplit t js r : for_each (CfgModel.parse_step t) js (empty_list, []) = Ok r -> unsplit (fst r).
Proof.
  apply (for_each_keeps _ (fun s => unsplit (fst s))); [|intros x k L; discriminate]. clear. intros [g d] j [g' d'] U E. cbn [fst] in *. unfold CfgModel.parse_step in E. cbn [fst snd] in E.
  destruct (set_jump_info j t) as [k|] eqn:J; [|discriminate]. cbn [bind] in E. unfold add_block in E. destruct (py_assert _); [|discriminate]. cbn [bind] in E. injection E as <- _.
  intros x k0 L. cbn [cl_blocks] in L. rewrite lookup_dict_set in L. destruct (String.eqb (j_id j) x); [injection L as <-; eapply jump_info_unsplit; exact J|exact (U _ _ L)].
Qed.

(** ** The blocks of a component *)
Section Component.
Variables (builtin : bool) (keys : list (string * nat)) (fs : list string) (self nm : string) (o : jobject) (c : option string).
Notation bs := (jblocks o c).
Hypothesis OK : jcomponent_ok builtin keys fs (jentry o c) bs.
Hypothesis PC : plain_component fs o c.
Notation bn := (block_name nm).
Definition as_read (b : jsblock) : jblock :=
  match js_exit b, js_id b with
  | Some e, Some x =>
      let t := match jx_type e with Some t => t | None => "" end in
      {| j_id := bn x; j_type := t; j_targets := map bn (jx_targets e); j_cond := jx_cond e;
         j_returns := if String.eqb t "FunctionReturn" then listed (jx_returns e) else []; j_entries := map bn (js_entries b); j_instrs := map plain (jinstrs b) |}
  | _, _ => {| j_id := ""; j_type := ""; j_targets := []; j_cond := None; j_returns := []; j_entries := []; j_instrs := [] |}
  end.
Lemma parse_as_read ids b : jblock_ok builtin keys fs ids b -> parse_block nm b = do k <- set_jump_info (as_read b) ""; Ok (j_id (as_read b), k, j_targets (as_read b)).
Proof.
  intros [H1 H2 (phis & rest & H3 & _ & _ & H4) (x & H5 & H6)]. unfold parse_block, as_read. rewrite H5. cbn [of_option bind].
  destruct (js_id b) as [y|]; [|contradiction]. cbn [of_option bind]. rewrite H3. cbn [of_option bind]. set (is := phis ++ rest) in *.
  assert (E : map_result (fun i => if String.eqb (js_type b) "FunctionReturn" then Raise OtherError else parse_instruction i) is = Ok (map plain is)).
  { apply map_result_total. intros i Hi. destruct (String.eqb_spec (js_type b) "FunctionReturn"); [contradiction|].
    rewrite Forall_forall in H4. eapply parse_instruction_ok. apply H4. exact Hi. }
  rewrite E. cbn [bind]. assert (J : jinstrs b = is) by (unfold jinstrs; rewrite H3; reflexivity). rewrite J.
  destruct H6 as [t ts T Ts I|f t ts c0 T Ts C I|t T In_ I|vs T R I]; rewrite T.
  - reflexivity.
  - reflexivity.
  - destruct In_ as [<-|[<-|[<-|[]]]]; reflexivity.
  - rewrite R. reflexivity.
Qed.
Lemma steps_as_read ids l : Forall (jblock_ok builtin keys fs ids) l -> forall st, for_each (ParseModel.parse_step nm) l st = for_each (CfgModel.parse_step "") (map as_read l) st.
Proof.
  induction 1 as [|b l Hb _ IH]; intros st; cbn [map for_each]; [reflexivity|]. unfold ParseModel.parse_step at 1, CfgModel.parse_step at 1. rewrite (parse_as_read _ _ Hb).
  destruct (set_jump_info (as_read b) "") as [k|]; [|reflexivity]. cbn [bind]. destruct (add_block _ _ _ _) as [g|]; [|reflexivity]. cbn [bind]. apply IH.
Qed.
Lemma block_in b : In b bs -> exists x, jblock_at o c x = Some b /\ js_id b = Some x.
Proof.
  intros I. pose proof (co_blocks _ _ _ _ _ OK) as F. rewrite Forall_forall in F. destruct (js_id b) as [x|] eqn:X; [|destruct (bo_id _ _ _ _ _ (F _ I)); exact X]. exists x. split; [|reflexivity].
  pose proof (co_ids _ _ _ _ _ OK) as ND. unfold jblock_at. clear F. revert I ND. generalize bs. induction l as [|b0 l IH]; intros I ND; [destruct I|]. cbn [find]. unfold ids_of in ND. cbn [flat_map] in ND.
  destruct I as [->|I]; [unfold has_id; rewrite X, String.eqb_refl; reflexivity|]. unfold has_id at 1. destruct (js_id b0) as [y|] eqn:Y; rewrite ?Y in ND; [|apply IH; assumption].
  cbn [app] in ND. inversion ND as [|? ? N1 N2]; subst. destruct (String.eqb_spec y x) as [->|]; [|apply IH; assumption]. exfalso. apply N1. exact (find_ids l b I _ X).
Qed.
Lemma ids_read_of ids l : Forall (jblock_ok builtin keys fs ids) l -> map j_id (map as_read l) = map bn (ids_of l).
Proof.
  induction 1 as [|b l [H1 _ _ (x & H5 & _)] F IH]; [reflexivity|]. cbn [map]. rewrite IH. unfold as_read. rewrite H5. unfold ids_of. cbn [flat_map].
  destruct (js_id b); [|contradiction]. reflexivity.
Qed.
Lemma ids_read : map j_id (map as_read bs) = map bn (ids_of bs).
Proof. exact (ids_read_of _ _ (co_blocks _ _ _ _ _ OK)). Qed.
Lemma read_exit b x : In b bs -> jblock_at o c x = Some b -> exists e, js_exit b = Some e /\ js_id b = Some x /\ jexit_ok (ids_of bs) e /\ as_read b = {| j_id := bn x; j_type := match jx_type e with Some t => t | None => "" end; j_targets := map bn (jx_targets e); j_cond := jx_cond e;
         j_returns := if String.eqb (match jx_type e with Some t => t | None => "" end) "FunctionReturn" then listed (jx_returns e) else []; j_entries := map bn (js_entries b); j_instrs := map plain (jinstrs b) |}.
Proof.
  intros I B. destruct (block_good builtin keys fs o c OK _ _ B) as [[_ _ _ (e & X & XO)] Id]. exists e. unfold as_read. rewrite X, Id. auto.
Qed.
Lemma input_read : input_ok (map as_read bs).
Proof.
  constructor.
  - destruct (co_start _ _ _ _ _ OK) as (s & H & _). intros E. destruct bs; [discriminate|discriminate].
  - rewrite ids_read. apply FinFun.Injective_map_NoDup; [intros a b; apply block_name_inj|]. exact (co_ids _ _ _ _ _ OK).
  - intros j I. apply in_map_iff in I as (b & <- & I). destruct (block_in b I) as (x & B & _). destruct (read_exit b x I B) as (e & X & _ & XO & ->). unfold ParseProps.exit_ok. cbn [j_type j_targets j_cond j_id].
    destruct XO as [t ts T Ts _|f t ts y T Ts C _|t T In_ _|vs T R _]; rewrite T.
    + cbn. destruct (pc_jumps _ _ _ PC x b e B X T) as (t' & -> & _). exists (bn t'). reflexivity.
    + cbn. destruct (pc_conds _ _ _ PC x b e B X T) as (f' & t' & -> & _). exists (bn f'), (bn t'), y. split; [reflexivity|exact C].
    + assert (N : incl (jx_targets e) [x]). { apply (pc_others _ _ _ PC x b e B X). rewrite T. intros [Q|[Q|[]]]; injection Q as <-; cbn in In_; intuition discriminate. }
      destruct In_ as [<-|[<-|[<-|[]]]]; cbn; intros z Hz; apply in_map_iff in Hz as (u & <- & Hu); apply N in Hu as [->|[]]; reflexivity.
    + assert (N : incl (jx_targets e) [x]). { apply (pc_others _ _ _ PC x b e B X). rewrite T. intros [Q|[Q|[]]]; discriminate. }
      cbn. intros z Hz. apply in_map_iff in Hz as (u & <- & Hu). apply N in Hu as [->|[]]. reflexivity.
  - intros j t I Ht. apply in_map_iff in I as (b & <- & I). destruct (block_in b I) as (x & B & _). destruct (read_exit b x I B) as (e & X & _ & XO & E). rewrite E in Ht. cbn [j_targets] in Ht.
    rewrite ids_read. apply in_map_iff in Ht as (u & <- & Hu). apply in_map. destruct XO as [? ? ? ? Ic|? ? ? ? ? ? ? Ic|? ? ? Ic|? ? ? Ic]; apply Ic; exact Hu.
Qed.
Lemma continues_targets e x b : jblock_at o c x = Some b -> js_exit b = Some e -> forall t, count (bn t) (exit_succs (as_read b)) = count t (continues e).
Proof.
  intros B X t. assert (I : In b bs) by (unfold jblock_at in B; apply find_some in B; tauto). destruct (read_exit b x I B) as (e' & X' & _ & XO & ->). rewrite X in X'. injection X' as <-. unfold exit_succs. cbn [j_type j_targets].
  assert (Cm : forall l, count (bn t) (map bn l) = count t l).
  { induction l as [|u l IH]; [reflexivity|]. cbn [map]. rewrite !count_cons, IH. destruct (String.eqb_spec (bn u) (bn t)) as [Q|N], (String.eqb_spec u t) as [Q'|N']; try reflexivity; [apply block_name_inj in Q; contradiction|subst; contradiction]. }
  unfold continues. destruct XO as [t0 ts T Ts _|f t0 ts y T Ts C _|t0 T In_ _|vs T R _]; rewrite T.
  - cbn. destruct (pc_jumps _ _ _ PC x b e B X T) as (t' & E & _). rewrite E. apply (Cm [t']).
  - cbn. destruct (pc_conds _ _ _ PC x b e B X T) as (f' & t' & E & _). rewrite E. apply (Cm [f'; t']).
  - destruct In_ as [<-|[<-|[<-|[]]]]; reflexivity.
  - reflexivity.
Qed.
Lemma not_itself e x b : jblock_at o c x = Some b -> js_exit b = Some e -> ~ In x (continues e).
Proof.
  intros B X. destruct (block_good builtin keys fs o c OK _ _ B) as [[_ _ _ (e' & X' & XO)] _]. rewrite X in X'. injection X' as <-.
  unfold continues. destruct XO as [t0 ts T Ts _|f t0 ts y T Ts C _|t0 T In_ _|vs T R _]; rewrite T.
  - destruct (pc_jumps _ _ _ PC x b e B X T) as (t' & -> & N). cbn. intuition.
  - destruct (pc_conds _ _ _ PC x b e B X T) as (f' & t' & -> & _ & N & N'). cbn. intuition.
  - destruct In_ as [<-|[<-|[<-|[]]]]; intros [].
  - intros [].
Qed.
Lemma component_ready : exists g, parser_block_list builtin keys nm self bs = Ok g /\ consistent g /\ unsplit g /\ map fst (cl_blocks g) = map bn (ids_of bs) /\ NoDup (cl_return g).
Proof.
  destruct (parsed_predecessors_partial "" (map as_read bs) input_read) as (g & E & K & _ & D & _ & _ & C).
  assert (CG : consistent g).
  { apply C.
    - intros a. destruct (in_dec string_dec a (map j_id (map as_read bs))) as [Ia|Ia]; [|apply absent_departures; rewrite K; exact Ia].
      apply in_map_iff in Ia as (j & <- & I). rewrite (D _ _ I). apply in_map_iff in I as (b & <- & I). destruct (block_in b I) as (x & B & _). destruct (read_exit b x I B) as (e & X & _ & _ & Er).
      replace (j_id (as_read b)) with (bn x) by (rewrite Er; reflexivity). rewrite (continues_targets e x b B X). apply count_zero. apply (not_itself e x b B X).
    - intros j y I Hy. apply in_map_iff in I as (b & <- & I). destruct (block_in b I) as (x & B & _). destruct (read_exit b x I B) as (e & X & _ & _ & Er). rewrite Er in Hy. cbn [j_entries] in Hy.
      apply in_map_iff in Hy as (y0 & <- & Hy). destruct (pc_entries _ _ _ PC x b y0 B Hy) as (b' & e' & B' & X' & Hc). replace (j_id (as_read b)) with (bn x) by (rewrite Er; reflexivity).
      assert (I' : In b' bs) by (unfold jblock_at in B'; apply find_some in B'; tauto). destruct (read_exit b' y0 I' B') as (e2 & X2 & _ & _ & Er2).
      split; [intros Q; apply block_name_inj in Q; subst y0; exact (not_itself e' x b' B' X' Hc)|].
      replace (bn y0) with (j_id (as_read b')) by (rewrite Er2; reflexivity). rewrite D by (apply in_map; exact I'). rewrite (continues_targets e' y0 b' B' X'). now apply count_In. }
  unfold parse_block_list in E. unfold parser_block_list. rewrite (steps_as_read _ _ (co_blocks _ _ _ _ _ OK)).
  destruct (for_each (CfgModel.parse_step "") (map as_read bs) (empty_list, [])) as [[g1 d]|] eqn:E1; [|discriminate]. cbn [bind fst snd] in E |- *. pose proof (parse_unsplit _ _ _ E1) as U1. cbn [fst] in U1.
  pose proof (parse_returns _ _ empty_list [] _ (in_ids _ input_read) (fun x _ H => H) (NoDup_nil _) E1) as N1. cbn [fst] in N1.
  destruct (component_ok builtin keys fs self nm o c OK) as (g3 & R3 & _). unfold parser_block_list in R3. rewrite (steps_as_read _ _ (co_blocks _ _ _ _ _ OK)), E1 in R3. cbn [bind fst snd] in R3.
  pose proof ids_read as IR. destruct builtin.
  - exists g. split; [exact E|]. split; [exact CG|]. split; [eapply update_unsplit; eassumption|]. split; [rewrite K; exact IR|]. rewrite (update_returns _ _ _ E). exact N1.
  - rewrite translate_opcodes_eq in R3 |- *. unfold translation in *. destruct (ParseModel.dfs nm g1) as [order|]; [|discriminate]. cbn [bind] in *.
    destruct (for_each (translate_step keys self) (rev order) (g1, (0, []))) as [r|] eqn:Et; [|discriminate]. cbn [bind] in *.
    pose proof (translate_frames _ _ _ _ _ _ Et) as F1. destruct (update_frames d _ _ _ F1 E) as (h & Eh & Fh). exists h. split; [exact Eh|]. split; [eapply frames_consistent; eassumption|].
    split; [eapply update_unsplit; [|exact Eh]; eapply translate_unsplit; eassumption|]. split; [rewrite (proj1 (proj1 Fh)), K; exact IR|]. destruct Fh as ((_ & _ & _ & ->) & _). rewrite (update_returns _ _ _ E). exact N1.
Qed.
End Component.

(** ** Names of blocks *)
Lemma digits_split d1 : forall d2 c1 c2 r1 r2, (forall c, In c d1 -> is_digit_char c = true) -> (forall c, In c d2 -> is_digit_char c = true) -> is_digit_char c1 = false -> is_digit_char c2 = false ->
  d1 ++ c1 :: r1 = d2 ++ c2 :: r2 -> d1 = d2 /\ r1 = r2.
Proof.
  induction d1 as [|a d1 IH]; intros [|b d2] c1 c2 r1 r2 D1 D2 N1 N2 E; cbn [app] in E.
  - injection E as -> ->. auto.
  - injection E as -> _. rewrite (D2 b) in N1 by (left; reflexivity). discriminate.
  - injection E as -> _. rewrite (D1 c2) in N2 by (left; reflexivity). discriminate.
  - injection E as -> E. destruct (IH d2 c1 c2 r1 r2) as [-> ->]; auto; intros c Hc; [apply D1|apply D2]; right; exact Hc.
Qed.
Lemma str_nat_nonempty n : list_ascii_of_string (str_nat n) <> [].
Proof.
  intros E. pose proof (py_int_str_nat n) as P. assert (Q : str_nat n = "") by (apply list_ascii_inj; exact E). rewrite Q in P. discriminate.
Qed.
Lemma names_apart p q n m w : fs_word w -> (q ++ "_" ++ "Block" ++ str_nat m)%string = ((p ++ "_" ++ "Block" ++ str_nat n) ++ w)%string -> p = q /\ n = m.
Proof.
  intros F E. apply (f_equal (fun s => rev (list_ascii_of_string s))) in E. rewrite !list_ascii_app, !rev_app_distr in E.
  assert (W : w = "").
  { destruct (rev (list_ascii_of_string w)) as [|c l] eqn:R; [destruct w as [|c w]; [reflexivity|]; cbn in R; apply app_eq_nil in R as [_ R]; discriminate|]. exfalso.
    assert (Fc : c = "f"%char \/ c = "s"%char) by (apply F; apply in_rev; rewrite R; left; reflexivity).
    destruct (rev (list_ascii_of_string (str_nat m))) as [|d l'] eqn:R'; [apply (str_nat_nonempty m); rewrite <- (rev_involutive (list_ascii_of_string (str_nat m))), R'; reflexivity|].
    assert (Fd : is_digit_char d = true) by (apply (str_nat_digits m); apply in_rev; rewrite R'; left; reflexivity). cbn [app] in E. injection E as -> _. destruct Fc as [-> | ->]; discriminate. }
  subst w. cbn [list_ascii_of_string rev app] in E. rewrite <- !app_assoc in E. cbn [app] in E.
  apply digits_split in E as [E1 E2]; [|intros c Hc; apply in_rev in Hc; eapply str_nat_digits; exact Hc|intros c Hc; apply in_rev in Hc; eapply str_nat_digits; exact Hc|reflexivity|reflexivity].
  split.
  - injection E2 as E2. apply (f_equal (@rev _)) in E2. rewrite !rev_involutive in E2. symmetry. apply list_ascii_inj. exact E2.
  - apply (f_equal (@rev _)) in E1. rewrite !rev_involutive in E1. apply list_ascii_inj in E1. symmetry. apply str_nat_inj. exact E1.
Qed.

(** ** The object *)
Section Ready.
Variables (builtin : bool) (keys : list (string * nat)) (name : string) (o : jobject).
Hypothesis OK : jobject_ok builtin keys o.
Hypothesis PF : plain_file name o.
Notation fnames := (map fst (jo_functions o)).
Notation prefix := (prefix_of name).
Notation im := (image_of builtin keys name o).

Lemma components_parsed : exists ob, parse_object builtin keys name o = Ok ob /\ map fst (ob_functions ob) = fnames
  /\ forall c g, component ob c g -> known o c /\ exists g0, parser_block_list builtin keys (prefix c) name (jblocks o c) = Ok g0 /\ g = identify_list fnames g0.
Proof.
  destruct (component_ok builtin keys fnames name name o None (known_ok builtin keys o OK None I)) as (g & R & _).
  assert (Fn : forall f k, In (f, k) (jo_functions o) -> lookup f (jo_functions o) = Some k).
  { intros f k H. pose proof (proj1 (jk_names _ _ _ OK)) as ND. clear - H ND. induction (jo_functions o) as [|[f' k'] l IH]; [destruct H|]. cbn [UtilModel.lookup]. inversion ND as [|? ? N1 N2]; subst.
    destruct H as [H|H]; [injection H as -> ->; rewrite String.eqb_refl; reflexivity|]. destruct (String.eqb_spec f' f) as [->|]; [|apply IH; assumption].
    exfalso. apply N1. apply in_map_iff. exists (f, k). auto. }
  assert (Pf : forall f k, lookup f (jo_functions o) = Some k -> exists g, parser_block_list builtin keys f name (jblocks o (Some f)) = Ok g /\ ParseModel.parse_function builtin keys name f k = Ok {| fn_args := rev (jf_args k); fn_blocks := g |}).
  { intros f k L. destruct (component_ok builtin keys fnames name f o (Some f) (known_ok builtin keys o OK (Some f) (ex_intro _ k L))) as (gf & Rf & _).
    exists gf. split; [exact Rf|]. unfold ParseModel.parse_function. cbn [jblocks] in Rf. rewrite L in Rf. rewrite Rf. reflexivity. }
  destruct (functions_parsed builtin keys name (jo_functions o)) with (acc := @nil (string * JumpModel.cfun)) as (fs & Rf & Kf & _ & Lf).
  { intros f k H. destruct (Pf f k (Fn f k H)) as (gf & _ & E). eauto. }
  { exact (proj1 (jk_names _ _ _ OK)). }
  { reflexivity. }
  pose proof R as R0. unfold parse_object. cbn [jblocks] in R. destruct (jo_blocks o) as [bs|] eqn:Eb; [|destruct (proj1 (jk_main _ _ _ OK)); exact Eb].
  cbn [of_option bind]. rewrite R. cbn [bind]. rewrite Rf. cbn [bind]. eexists. split; [reflexivity|]. cbn [map app] in Kf.
  set (ob := identify_function_calls _).
  assert (Lob : forall f, lookup f (ob_functions ob) = option_map (fun k => {| fn_args := fn_args k; fn_blocks := identify_list (map fst fs) (fn_blocks k) |}) (lookup f fs)).
  { intros f. unfold ob, identify_function_calls. cbn [ob_functions ob_main]. generalize (identify_list (map fst fs)). intros h. clear. induction fs as [|[f' k'] l IH]; [reflexivity|].
    cbn [map UtilModel.lookup fst snd]. destruct (String.eqb f' f); [reflexivity|exact IH]. }
  split; [unfold ob, identify_function_calls; cbn [ob_functions]; rewrite map_map; exact Kf|].
  intros [f|] g'; cbn [JumpSpec.component].
  - intros (k' & L' & <-). rewrite Lob in L'. destruct (lookup f fs) as [k1|] eqn:L1; [|discriminate]. cbn [option_map] in L'. injection L' as <-. cbn [fn_blocks].
    assert (If : In f fnames) by (rewrite <- Kf; eapply lookup_In_key; exact L1). apply key_lookup in If as (k & L). split; [exists k; exact L|].
    destruct (Lf f k (lookup_In _ _ _ L)) as (k2 & E & L2). rewrite L1 in L2. injection L2 as <-. destruct (Pf f k L) as (gf & Rg & E'). rewrite E in E'. injection E' as ->. exists gf. cbn [prefix_of fn_blocks]. rewrite Kf. split; [exact Rg|reflexivity].
  - intros <-. split; [exact I|]. exists g. cbn [prefix_of]. split; [exact R0|]. unfold ob, identify_function_calls. cbn [ob_main ob_functions]. rewrite Kf. reflexivity.
Qed.

Lemma identify_lookup fs g x : lookup x (cl_blocks (identify_list fs g)) = option_map (process_function_calls fs) (lookup x (cl_blocks g)).
Proof. cbn [identify_list cl_blocks]. induction (cl_blocks g) as [|[y b] l IH]; [reflexivity|]. cbn [map UtilModel.lookup fst snd]. destruct (String.eqb y x); [reflexivity|exact IH]. Qed.
Lemma identify_frames fs g : frames g (identify_list fs g).
Proof.
  split; [split; [cbn [identify_list cl_blocks]; rewrite map_map; reflexivity|repeat split]|]. intros x k L. rewrite identify_lookup, L. eexists. split; [reflexivity|].
  unfold process_function_calls. destruct (rev (cb_instrs k)); [apply framed_refl|]. destruct (_ || _); [repeat split|apply framed_refl].
Qed.

(** A block of the parsed object and the block of the file it comes from. *)
Lemma component_from c g0 : known o c -> parser_block_list builtin keys (prefix c) name (jblocks o c) = Ok g0 ->
  (consistent (identify_list fnames g0) /\ map fst (cl_blocks (identify_list fnames g0)) = map (block_name (prefix c)) (ids_of (jblocks o c)) /\ NoDup (cl_return (identify_list fnames g0)))
  /\ forall x k, lookup x (cl_blocks (identify_list fnames g0)) = Some k -> exists z b, x = block_name (prefix c) z /\ jblock_at o c z = Some b /\ image (prefix c) (im c) b k
    /\ (cb_cond k <> None -> cb_type k = "conditional") /\ forall i, cb_split k = Some i -> In (li_op i) (leaving ++ fnames) /\ exists pre, cb_instrs k = pre ++ [i].
Proof.
  intros Kc R. pose proof (known_ok builtin keys o OK c Kc) as CO. pose proof (pf_components _ _ PF c Kc) as PC.
  destruct (component_ready builtin keys fnames name (prefix c) o c CO PC) as (g1 & R1 & C1 & U1 & K1 & N1). rewrite R in R1. injection R1 as <-.
  destruct (component_ok builtin keys fnames name (prefix c) o c CO) as (g2 & R2 & _ & Im & _). rewrite R in R2. injection R2 as <-.
  split; [split; [eapply frames_consistent; [apply identify_frames|exact C1]|split; [rewrite <- K1; exact (proj1 (proj1 (identify_frames fnames g0)))|exact N1]]|]. intros x k L. rewrite identify_lookup in L. destruct (lookup x (cl_blocks g0)) as [k0|] eqn:L0; [|discriminate]. cbn [option_map] in L. injection L as <-.
  assert (Ix : In x (map (block_name (prefix c)) (ids_of (jblocks o c)))) by (rewrite <- K1; eapply lookup_In_key; exact L0). apply in_map_iff in Ix as (z & <- & Iz).
  destruct (ids_find _ _ Iz) as (b & B & _). exists z, b. split; [reflexivity|]. split; [exact B|]. destruct (Im z b (pc_reached _ _ _ PC z b B) B) as (k1 & L1 & I1). rewrite L0 in L1. injection L1 as <-.
  assert (Al : alike k0 (process_function_calls fnames k0)) by (unfold process_function_calls; destruct (rev (cb_instrs k0)); [repeat split|]; destruct (_ || _); repeat split).
  split; [eapply alike_image; eassumption|]. split; [destruct Al as (_ & -> & _ & _ & -> & _); exact (proj1 (U1 _ _ L0))|]. intros i. unfold process_function_calls. destruct (rev (cb_instrs k0)) as [|a l] eqn:Rv.
  - intros S. destruct (proj2 (U1 _ _ L0) i S) as (O & pre & Q). split; [rewrite O; cbn; tauto|eauto].
  - destruct (mem (li_op a) fnames || mem (li_op a) ["JUMP"; "JUMPI"]) eqn:T.
    + intros S. cbn in S. injection S as <-. split; [|exists (rev l); cbn; rewrite <- (rev_involutive (cb_instrs k0)), Rv; reflexivity].
      apply in_app_iff. apply orb_true_iff in T as [T|T]; apply mem_In in T; [right; exact T|left]. destruct T as [<-|[<-|[]]]; cbn; tauto.
    + intros S. destruct (proj2 (U1 _ _ L0) i S) as (O & pre & Q). split; [rewrite O; cbn; tauto|eauto].
Qed.

Lemma image_eq c i t : ~ In t changed -> ~ In t new_ops -> li_op (im c i) = t <-> li_op i = t.
Proof.
  intros N1 N2. pose proof (image_is builtin keys name o OK c i t N1 N2) as E. destruct (String.eqb_spec (li_op (im c i)) t), (String.eqb_spec (li_op i) t); try discriminate; tauto.
Qed.
Ltac keep := let H := fresh in intros H; cbn in H; repeat (destruct H as [H|H]; [discriminate|]); exact H.
Lemma image_function c i : In (li_op (im c i)) fnames -> li_op (im c i) = li_op i.
Proof.
  intros H. destruct (image_op builtin keys name o OK c i) as [[E _]|[_ B]]; [exact E|]. exfalso. apply (proj2 (jk_names _ _ _ OK) _ H). cbn in B |- *. tauto.
Qed.
Lemma image_leaving c i : In (li_op (im c i)) leaving -> li_op (im c i) = li_op i.
Proof.
  intros H. destruct (image_op builtin keys name o OK c i) as [[E _]|[_ B]]; [exact E|]. exfalso. cbn in H. repeat destruct H as [H|H]; try contradiction; rewrite <- H in B; cbn in B; intuition discriminate.
Qed.

Lemma ready : exists ob, parse_object builtin keys name o = Ok ob /\ object_ok ob.
Proof.
  destruct components_parsed as (ob & E & Fs & Cs). exists ob. split; [exact E|].
  assert (Blk : forall c g x k, component ob c g -> lookup x (cl_blocks g) = Some k -> known o c /\ exists z b, x = block_name (prefix c) z /\ jblock_at o c z = Some b /\ image (prefix c) (im c) b k
    /\ (cb_cond k <> None -> cb_type k = "conditional") /\ forall i, cb_split k = Some i -> In (li_op i) (leaving ++ fnames) /\ exists pre, cb_instrs k = pre ++ [i]).
  { intros c g x k C L. destruct (Cs c g C) as (Kc & g0 & R & ->). split; [exact Kc|]. exact (proj2 (component_from c g0 Kc R) x k L). }
  assert (Con : forall c g, component ob c g -> consistent g).
  { intros c g C. destruct (Cs c g C) as (Kc & g0 & R & ->). exact (proj1 (proj1 (component_from c g0 Kc R))). }
  constructor.
  - rewrite Fs. exact (proj1 (jk_names _ _ _ OK)).
  - intros f Hf. rewrite Fs in Hf. intros [Q|[Q|[Q|[Q|[Q|[]]]]]].
    1-3: apply (proj2 (pf_names _ _ PF) f Hf); subst f; cbn; tauto.
    all: apply (proj2 (jk_names _ _ _ OK) f Hf); subst f; cbn; tauto.
  - destruct (cl_return (ob_main ob)) as [|x l] eqn:Q; [reflexivity|]. exfalso. assert (Ix : In x (cl_return (ob_main ob))) by (rewrite Q; left; reflexivity).
    apply (c_return _ (Con None (ob_main ob) eq_refl)) in Ix as (k & L & T). destruct (Blk None (ob_main ob) x k eq_refl L) as (Kc & z & b & _ & B & [(e & X & Ei & _) _] & _). cbn in T. destruct T as [T|[]].
    destruct Ei as [? ? ? T'|? ? ? ? ? ? ? T'|? T'|? ? ? T'|vs Te Rv T']; try congruence; [cbn in T'; intuition congruence|].
    destruct (pc_returns _ _ _ (pf_components _ _ PF None I) z b e B X Te) as (f & Q' & _). discriminate.
  - exact Con.
  - intros c g x k C L. destruct (Blk c g x k C L) as (Kc & z & b & -> & B & [(e & X & Ei & _) _] & _). pose proof (pf_components _ _ PF c Kc) as PC. unfold CfgModel.successors.
    destruct Ei as [t T N _ J Fl|f t y T N0 N1 _ _ _ J Fl|T _ J Fl|t T _ _ J Fl|vs T _ _ J Fl]; rewrite J, Fl; cbn [opt_list app]; try solve [split; [intros []|constructor]].
    + destruct (pc_jumps _ _ _ PC z b e B X T) as (t' & Tt & N'). rewrite Tt in N. injection N as <-. split; [intros [Q|[]]; apply block_name_inj in Q; contradiction|repeat constructor; intros []].
    + destruct (pc_conds _ _ _ PC z b e B X T) as (f' & t' & Tt & N2 & N3 & N4). rewrite Tt in N0, N1. injection N0 as <-. injection N1 as <-.
      split; [intros [Q|[Q|[]]]; apply block_name_inj in Q; contradiction|]. constructor; [intros [Q|[]]; apply block_name_inj in Q; contradiction|repeat constructor; intros []].
  - intros c g x k C L. destruct (Blk c g x k C L) as (Kc & z & b & -> & B & [(e & X & Ei & Is) _] & _). unfold exit_ok, CfgModel.successors.
    destruct Ei as [t T N Ty J Fl|f t y T N0 N1 Cn Ty Cd J Fl|T Ty J Fl|t T In_ Ty J Fl|vs T Rv Ty J Fl]; rewrite J, Fl.
    + rewrite Ty. split; [intros _; split; [discriminate|reflexivity]|]. split; [discriminate|]. split; [discriminate|]. intros Q. contradiction.
    + rewrite Ty, Cd. split; [discriminate|]. split; [intros _; repeat split; discriminate|]. split; [discriminate|]. intros _ Q. contradiction.
    + rewrite Ty. split; [discriminate|]. split; [discriminate|]. split; [discriminate|reflexivity].
    + destruct Ty as [<-|[<-|[]]]; (split; [discriminate|]; split; [discriminate|]; split; [discriminate|reflexivity]).
    + rewrite Ty. split; [discriminate|]. split; [discriminate|]. split; [|intros _ _; reflexivity]. intros _. split; [reflexivity|].
      rewrite Is, map_app. unfold ending. rewrite T, Rv. cbn [String.eqb Ascii.eqb Bool.eqb listed map]. eexists. exists vs. f_equal. f_equal.
      unfold image_of, rewritten. destruct builtin; reflexivity.
  - intros c g x k C L. destruct (Blk c g x k C L) as (Kc & z & b & -> & B & [(e & X & Ei & Is) _] & _). destruct (block_good builtin keys fnames o c (known_ok builtin keys o OK c Kc) z b B) as [[_ _ (phis & rest & Hi & P1 & P2 & _) _] _].
    rewrite Forall_forall in P1, P2. exists (map (im c) (map plain phis)), (map (im c) (map plain rest ++ ending e)). split; [rewrite Is; unfold jinstrs; rewrite Hi, !map_app, app_assoc; reflexivity|]. split.
    + intros i Hin. rewrite map_map in Hin. apply in_map_iff in Hin as (i0 & <- & H0). apply image_eq; [keep|keep|]. apply P1. exact H0.
    + intros i Hin. apply in_map_iff in Hin as (i0 & <- & H0). rewrite image_eq by keep. apply in_app_iff in H0 as [H0|H0]; [apply in_map_iff in H0 as (i1 & <- & H1); apply P2; exact H1|].
      unfold ending in H0. destruct (jx_type e); [|destruct H0]. destruct (String.eqb _ _); [|destruct H0]. destruct H0 as [<-|[]]. discriminate.
  - intros c g x k i C L S. destruct (Blk c g x k C L) as (Kc & z & b & -> & B & _ & _ & Sp). rewrite Fs. exact (Sp i S).
  - intros c g x k pre i post C L Q Lv. destruct (Blk c g x k C L) as (Kc & z & b & -> & B & [(e & X & Ei & Is) _] & _). pose proof (pf_components _ _ PF c Kc) as PC. rewrite Q in Is. symmetry in Is.
    apply map_eq_app in Is as (u & v & Euv & Eu & Ev). destruct v as [|i0 post0]; [discriminate|]. cbn [map] in Ev. injection Ev as Ei0 Ep. rewrite <- Ei0 in Lv |- *. pose proof (image_leaving c i0 Lv) as Op. rewrite Op in Lv |- *.
    assert (Cut : (exists a1 a2 j, jinstrs b = a1 ++ j :: a2 /\ i0 = plain j /\ post0 = map plain a2 ++ ending e) \/ (In i0 (ending e) /\ post0 = [])).
    { clear - Euv. revert u Euv. induction (jinstrs b) as [|a l IH]; intros u Euv; cbn [map app] in Euv.
      - right. unfold ending in *. destruct (jx_type e); [|destruct u; discriminate]. destruct (String.eqb _ _); [|destruct u; discriminate]. destruct u as [|u0 u]; [injection Euv as <- <-; split; [left|]; reflexivity|]. destruct u; discriminate.
      - destruct u as [|u0 u]; cbn [app] in Euv.
        + injection Euv as <- <-. left. exists [], l, a. auto.
        + injection Euv as _ Euv. destruct (IH u Euv) as [(a1 & a2 & j & -> & H1 & H2)|H]; [left; exists (a :: a1), a2, j; auto|right; exact H]. }
    destruct Cut as [(a1 & a2 & j & Hj & -> & ->)|[He ->]].
    + cbn [li_op plain] in *. assert (Ij : In j (jinstrs b)) by (rewrite Hj; apply in_app_iff; right; left; reflexivity).
      destruct (block_good builtin keys fnames o c (known_ok builtin keys o OK c Kc) z b B) as [[_ _ (phis & rest & Hi & _ & _ & P3) _] _]. rewrite Forall_forall in P3.
      assert (Ok_ : jinstr_ok builtin keys fnames j) by (apply P3; unfold jinstrs in Ij; rewrite Hi in Ij; exact Ij). destruct (io_names _ _ _ _ Ok_) as (Nf & _ & _). destruct (pc_plain _ _ _ PC z b j B Ij) as (Nj & _).
      assert (Lv' : In (operation j) ["return"; "revert"; "stop"; "selfdestruct"]).
      { destruct Lv as [Q'|[Q'|[Q'|Lv]]]; [exfalso; apply Nj; cbn; auto|exfalso; apply Nj; cbn; auto|exfalso; apply Nf; auto|exact Lv]. }
      destruct (pc_leaving _ _ _ PC z b e a1 j a2 B X Hj Lv') as (-> & Nt). assert (En : ending e = []).
      { unfold ending. destruct (jx_type e) as [t|]; [|reflexivity]. destruct (String.eqb_spec t "FunctionReturn") as [->|]; [exfalso; apply Nt; cbn; auto|reflexivity]. }
      rewrite En in Ep. cbn in Ep. subst post. split; [reflexivity|]. split; [|intros Q'; contradiction].
      destruct Ei as [t T N Ty J Fl|f t y T N0 N1 Cn Ty Cd J Fl|T Ty J Fl|t T In_ Ty J Fl|vs T Rv Ty J Fl].
      * exfalso. apply Nt. rewrite T. cbn. auto.
      * exfalso. apply Nt. rewrite T. cbn. auto.
      * rewrite Ty. intros [Q'|[Q'|[]]]; discriminate.
      * destruct Ty as [<-|[<-|[]]]; intros [Q'|[Q'|[]]]; discriminate.
      * rewrite Ty. intros [Q'|[Q'|[]]]; discriminate.
    + cbn in Ep. subst post. split; [reflexivity|].
      assert (Tr : cb_type k = "FunctionReturn").
      { unfold ending in He. destruct Ei as [t T N Ty J Fl|f t y T N0 N1 Cn Ty Cd J Fl|T Ty J Fl|t T In_ Ty J Fl|vs T Rv Ty J Fl]; rewrite T in He; cbn in He; try contradiction; [|exact Ty]. destruct In_ as [<-|[<-|[]]]; destruct He. }
      rewrite Tr. split; [intros [Q'|[Q'|[]]]; discriminate|reflexivity].
  - intros c g x k i C L Hin. destruct (Blk c g x k C L) as (Kc & z & b & -> & B & [(e & X & Ei & Is) _] & _). pose proof (pf_components _ _ PF c Kc) as PC. rewrite Is in Hin. apply in_map_iff in Hin as (i0 & <- & H0). rewrite Fs.
    apply in_app_iff in H0 as [H0|H0].
    + apply in_map_iff in H0 as (j & <- & Ij). destruct (pc_plain _ _ _ PC z b j B Ij) as (Nj & Np).
      destruct (block_good builtin keys fnames o c (known_ok builtin keys o OK c Kc) z b B) as [[_ _ (phis & rest & Hi & _ & _ & P3) _] _]. rewrite Forall_forall in P3.
      assert (Ok_ : jinstr_ok builtin keys fnames j) by (apply P3; unfold jinstrs in Ij; rewrite Hi in Ij; exact Ij). destruct (io_names _ _ _ _ Ok_) as (Nf & Ng & _).
      split; [|split].
      * intros [Q|[Q|[Q|[]]]]; symmetry in Q; apply image_eq in Q; try keep; cbn [plain li_op] in Q; [contradiction|apply Nj; rewrite Q; cbn; auto|apply Nj; rewrite Q; cbn; auto].
      * intros Hf. pose proof (image_function c (plain j) Hf) as Q. rewrite Q in Hf. rewrite (proj1 (image_io builtin keys name o OK c (plain j))). cbn [plain li_op li_ins] in *.
        destruct (String.eqb_spec (operation j) "PhiFunction") as [P|_]; [exfalso; apply (proj2 (jk_names _ _ _ OK) _ Hf); rewrite P; cbn; auto|]. exact (Np Hf).
      * intros Q. apply image_eq in Q; [|keep..]. cbn [plain li_op] in Q. contradiction.
    + assert (T : jx_type e = Some "FunctionReturn" /\ i0 = {| li_op := "functionReturn"; li_ins := listed (jx_returns e); li_outs := []; li_lits := None |}).
      { clear - H0. unfold ending in H0. destruct (jx_type e) as [ty|]; [|destruct H0]. destruct (String.eqb_spec ty "FunctionReturn") as [Q|]; [|destruct H0]. destruct H0 as [H0|[]]. split; congruence. }
      destruct T as (T & ->). assert (Im : im c {| li_op := "functionReturn"; li_ins := listed (jx_returns e); li_outs := []; li_lits := None |} = {| li_op := "functionReturn"; li_ins := listed (jx_returns e); li_outs := []; li_lits := None |}) by (unfold image_of, rewritten; destruct builtin; reflexivity).
      rewrite Im. cbn [li_op li_ins]. split; [intros [Q|[Q|[Q|[]]]]; discriminate|]. split; [intros Hf; exfalso; apply (proj2 (jk_names _ _ _ OK) _ Hf); cbn; auto|].
      intros _ r Hr. destruct (pc_returns _ _ _ PC z b e B X T) as (f & -> & N). cbn [return_name] in Hr. destruct (lookup f (ob_functions ob)) as [kf|]; [|discriminate]. destruct (cl_return (fn_blocks kf)); [discriminate|]. injection Hr as <-. exact N.
  - intros c1 c2 x y w (g1 & C1 & K1) (g2 & C2 & K2) Fw Q. apply key_lookup in K1 as (k1 & L1). apply key_lookup in K2 as (k2 & L2).
    destruct (Blk c1 g1 x k1 C1 L1) as (Kc1 & z1 & b1 & -> & B1 & _). destruct (Blk c2 g2 y k2 C2 L2) as (Kc2 & z2 & b2 & -> & B2 & _).
    destruct (pc_ids _ _ _ (pf_components _ _ PF c1 Kc1) z1 b1 B1) as (n1 & ->). destruct (pc_ids _ _ _ (pf_components _ _ PF c2 Kc2) z2 b2 B2) as (n2 & ->). unfold ParseModel.block_name in *.
    destruct (names_apart _ _ _ _ w Fw Q) as (P & ->). rewrite P. split; [reflexivity|]. assert (Nn := proj1 (pf_names _ _ PF)).
    destruct c1 as [f1|], c2 as [f2|]; cbn [prefix_of] in P; subst; try reflexivity; exfalso; apply Nn; [destruct Kc1 as (k & Lk)|destruct Kc2 as (k & Lk)]; eapply lookup_In_key; exact Lk.
Qed.
End Ready.

(** C58 for the passes that follow: a file written as solc writes it is parsed to
    an object that they accept. *)
Theorem parsed_object_ready_partial : forall builtin keys name o, jobject_ok builtin keys o -> plain_file name o -> exists ob, parse_object builtin keys name o = Ok ob /\ object_ok ob.
Proof. exact ready. Qed.
Print Assumptions parsed_object_ready_partial.
