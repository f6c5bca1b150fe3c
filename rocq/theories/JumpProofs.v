(** Proofs of C43: insertion of jumps and splitting at calls. *)
From Verif Require Import Base UtilModel UtilProps UnifyProps LiveModel CfgModel CfgSpec CfgProps CombineProps JumpModel JumpSpec JumpTrace.
From Verif Require Import SpecProofs.
From Coq Require Import Permutation.
Open Scope string_scope. Open Scope list_scope.

(** ** Dictionaries of tags *)
Record good_tags (tags : tag_dict) : Prop := {
  gt_keys : NoDup (map fst tags);
  gt_vals : Permutation (map snd tags) (seq 1 (length tags))
}.
Lemma good_nil : good_tags []. Proof. split; constructor. Qed.
Lemma lookup_snoc {A} k v x (d : list (string * A)) : lookup k d = None -> lookup x (d ++ [(k, v)]) = if String.eqb k x then Some v else lookup x d.
Proof.
  intros N. rewrite lookup_app. cbn [lookup]. destruct (String.eqb_spec k x) as [->|].
  - rewrite N. reflexivity.
  - destruct (lookup x d); reflexivity.
Qed.
Lemma tag_request k tags t tags' : good_tags tags -> tag_from_tag_dict k tags = (t, tags') ->
  good_tags tags' /\ lookup k tags' = Some t /\ (forall x, x <> k -> lookup x tags' = lookup x tags) /\ (forall x u, lookup x tags = Some u -> lookup x tags' = Some u).
Proof.
  intros G. unfold tag_from_tag_dict. destruct (lookup k tags) as [u|] eqn:L; intros E; injection E as <- <-; [auto|].
  split; [|split; [|split]].
  - destruct G as [K V]. apply lookup_None in L. split.
    + rewrite map_app. cbn. apply NoDup_app_intro; [exact K|repeat constructor; auto|]. intros x I [<-|[]]. contradiction.
    + rewrite map_app, app_length. cbn [map snd length]. rewrite seq_app. apply Permutation_app; [exact V|]. cbn. rewrite Nat.add_1_r. reflexivity.
  - rewrite lookup_snoc, String.eqb_refl by exact L. reflexivity.
  - intros x N. rewrite lookup_snoc by exact L. destruct (String.eqb_spec k x); congruence.
  - intros x u Q. rewrite lookup_snoc by exact L. destruct (String.eqb_spec k x); congruence.
Qed.
Lemma del_perm {A} k (v : A) d : NoDup (map fst d) -> lookup k d = Some v -> Permutation d ((k, v) :: del k d).
Proof.
  induction d as [|[k' v'] d IH]; [discriminate|]. cbn [map fst lookup]. intros N L. inversion N as [|? ? N1 N2]; subst. unfold del. cbn [filter fst].
  destruct (String.eqb_spec k' k) as [->|NE].
  - injection L as ->. cbn [negb]. apply perm_skip. assert (del k d = d) as Q; [|unfold del in Q; rewrite Q; reflexivity].
    unfold del. clear -N1. induction d as [|[a b] d IH]; [reflexivity|]. cbn in *. destruct (String.eqb_spec a k) as [->|]; [tauto|]. cbn. f_equal. apply IH. tauto.
  - cbn [negb]. specialize (IH N2 L). unfold del in IH. rewrite perm_swap. now apply perm_skip.
Qed.
Lemma dict_set_fresh {A} k (v : A) d : lookup k d = None -> dict_set k v d = d ++ [(k, v)].
Proof. induction d as [|[k' v'] d IH]; [reflexivity|]. cbn. destruct (String.eqb_spec k' k); [discriminate|]. intros H. now rewrite IH. Qed.
Lemma move_good old new tags : good_tags tags -> old <> new -> lookup new tags = None -> good_tags (move_tag old new tags)
  /\ forall x, lookup x (move_tag old new tags) = if String.eqb x new then lookup old tags else if String.eqb x old then None else lookup x tags.
Proof.
  intros [K V] NE N. unfold move_tag. destruct (lookup old tags) as [t|] eqn:L.
  - assert (F : lookup new (del old tags) = None) by (rewrite lookup_del, N; destruct (String.eqb old new); reflexivity).
    pose proof (del_perm _ _ _ K L) as P. split.
    + split; [apply dict_set_NoDup, NoDup_del, K|]. rewrite dict_set_fresh by exact F. rewrite map_app, app_length. cbn [map snd length].
      rewrite (Permutation_length P) in V. cbn [length] in V. rewrite Nat.add_1_r. rewrite <- V. rewrite P at 2. cbn [map snd]. rewrite Permutation_app_comm. reflexivity.
    + intros x. rewrite lookup_dict_set, lookup_del, (String.eqb_sym x new), (String.eqb_sym x old). reflexivity.
  - split; [split; assumption|]. intros x. destruct (String.eqb_spec x new) as [->|]; [exact N|]. destruct (String.eqb_spec x old) as [->|]; [exact L|reflexivity].
Qed.
Lemma good_distinct tags : good_tags tags -> distinct_tags tags.
Proof.
  intros [K V]. split.
  - intros x t L. apply lookup_In, (in_map snd) in L. apply (Permutation_in _ V) in L. apply in_seq in L. cbn in L. lia.
  - intros x y t Lx Ly. assert (N : NoDup (map snd tags)) by (apply (Permutation_NoDup (Permutation_sym V)), seq_NoDup). clear V K.
    induction tags as [|[k v] tags IH]; [discriminate|]. cbn [map snd] in N. inversion N as [|? ? N1 N2]; subst. cbn [lookup] in Lx, Ly.
    destruct (String.eqb_spec k x) as [<-|], (String.eqb_spec k y) as [<-|]; auto.
    + injection Lx as ->. exfalso. apply N1. exact (in_map snd _ _ (lookup_In _ _ _ Ly)).
    + injection Ly as ->. exfalso. apply N1. exact (in_map snd _ _ (lookup_In _ _ _ Lx)).
Qed.

(** ** Names *)
Definition spread (x y : string) : Prop := exists w, fs_word w /\ y = (x ++ w)%string.
Lemma str_app_assoc a b c : ((a ++ b) ++ c)%string = (a ++ (b ++ c))%string.
Proof. induction a as [|d a IH]; [reflexivity|]. cbn. now rewrite IH. Qed.
Lemma str_app_nil a : (a ++ "")%string = a.
Proof. induction a as [|d a IH]; [reflexivity|]. cbn. now rewrite IH. Qed.
Lemma chars_app a b : list_ascii_of_string (a ++ b)%string = list_ascii_of_string a ++ list_ascii_of_string b.
Proof. induction a as [|d a IH]; [reflexivity|]. cbn. now rewrite IH. Qed.
Lemma fs_app a b : fs_word (a ++ b)%string <-> fs_word a /\ fs_word b.
Proof.
  unfold fs_word. rewrite chars_app. split; [intros H; split; intros c I; apply H; apply in_app_iff; auto|]. intros [A B] c I. apply in_app_iff in I as [I|I]; auto.
Qed.
Lemma fs_nil : fs_word "". Proof. intros c []. Qed.
Lemma fs_f : fs_word "f". Proof. intros c [<-|[]]. now left. Qed.
Lemma fs_s : fs_word "s". Proof. intros c [<-|[]]. now right. Qed.
Lemma spread_refl x : spread x x. Proof. exists "". split; [apply fs_nil|]. now rewrite str_app_nil. Qed.
Lemma spread_trans x y z : spread x y -> spread y z -> spread x z.
Proof. intros (w & F & ->) (v & G & ->). exists (w ++ v)%string. split; [apply fs_app; auto|apply str_app_assoc]. Qed.
Lemma spread_first x : spread x (first_id x). Proof. exists "f". split; [apply fs_f|reflexivity]. Qed.
Lemma spread_second x : spread x (second_id x). Proof. exists "s". split; [apply fs_s|reflexivity]. Qed.
Lemma prefix_cases : forall a b c d, (a ++ b = c ++ d)%string -> (exists e, a = (c ++ e)%string /\ d = (e ++ b)%string) \/ (exists e, c = (a ++ e)%string /\ b = (e ++ d)%string).
Proof.
  induction a as [|x a IH]; intros b c d H.
  - right. exists c. auto.
  - destruct c as [|y c]; [left; exists (String x a); auto|]. cbn in H. injection H as <- H. destruct (IH _ _ _ H) as [(e & -> & ->)|(e & -> & ->)]; [left|right]; exists e; auto.
Qed.
(** Nothing below [x] is in use yet. *)
Definition free_below (x : string) (ids : list string) (tags : tag_dict) : Prop :=
  forall w, fs_word w -> w <> "" -> ~ In (x ++ w)%string ids /\ lookup (x ++ w)%string tags = None.

(** ** Edits in place *)
Lemma consistent_put g x b b' : consistent g -> lookup x (cl_blocks g) = Some b -> cb_type b' = cb_type b -> cb_jump_to b' = cb_jump_to b -> cb_falls_to b' = cb_falls_to b ->
  cb_comes_from b' = cb_comes_from b -> cb_entries b' = cb_entries b -> consistent (put_block x b' g).
Proof.
  intros C L T J F CF EN. assert (LG : forall y, lookup y (cl_blocks (put_block x b' g)) = if String.eqb x y then Some b' else lookup y (cl_blocks g)) by (intros; cbn; apply lookup_dict_set).
  assert (K : map fst (cl_blocks (put_block x b' g)) = map fst (cl_blocks g)) by (apply dict_set_same_keys; exact (lookup_In_key _ _ _ L)).
  assert (HT : forall tys y, has_type tys (put_block x b' g) y <-> has_type tys g y).
  { intros tys y. unfold has_type. rewrite LG. destruct (String.eqb_spec x y) as [<-|]; [|reflexivity]. rewrite L. split; intros (q & Q & I); injection Q as <-; eexists; (split; [reflexivity|]); congruence. }
  constructor.
  - rewrite K. apply C.
  - intros a c. unfold arrivals, departures. rewrite !LG. pose proof (c_links g C a c) as Q. unfold arrivals, departures in Q.
    assert (SU : successors b' = successors b) by (unfold successors; now rewrite J, F).
    destruct (String.eqb_spec x c) as [<-|], (String.eqb_spec x a) as [<-|]; rewrite ?L, ?SU, ?CF in *; exact Q.
  - intros y q. rewrite LG. destruct (String.eqb_spec x y) as [<-|]; [|apply C]. intros Q. injection Q as <-. rewrite EN, CF. apply (c_entries g C x b L).
  - rewrite K. apply C.
  - intros y. rewrite HT. apply C.
  - intros y. rewrite HT. apply C.
Qed.
Lemma edited_put E g x b b' : lookup x (cl_blocks g) = Some b -> edited_block E b b' -> edited E g (put_block x b' g).
Proof.
  intros L D. split; [reflexivity|]. intros y. cbn [put_block cl_blocks]. rewrite lookup_dict_set. destruct (String.eqb_spec x y) as [<-|].
  - rewrite L. exact D.
  - destruct (lookup y (cl_blocks g)); [repeat split|exact I].
Qed.
Definition linked (g : clist) : Prop := forall x b, lookup x (cl_blocks g) = Some b -> ~ In x (successors b) /\ NoDup (successors b).
Lemma linked_put g x b b' : linked g -> lookup x (cl_blocks g) = Some b -> cb_jump_to b' = cb_jump_to b -> cb_falls_to b' = cb_falls_to b -> linked (put_block x b' g).
Proof.
  intros H L J F y q. cbn [put_block cl_blocks]. rewrite lookup_dict_set. destruct (String.eqb_spec x y) as [<-|]; [|apply H].
  intros Q. injection Q as <-. unfold successors. rewrite J, F. apply (H x b L).
Qed.
Lemma target_known g x b y : consistent g -> lookup x (cl_blocks g) = Some b -> In y (successors b) -> In y (map fst (cl_blocks g)).
Proof. intros C L I. apply (edge_target g x y C). exists b. split; [exact L|]. unfold successors in I. apply in_app_iff in I as [I|I]; [left; destruct (cb_jump_to b)|right; destruct (cb_falls_to b)]; cbn in I; intuition congruence. Qed.

Lemma before_short fns ret e : length (before fns ret e) <= 1.
Proof. unfold before. destruct e as [i|v d]; [|cbn; lia]. destruct (mem (li_op i) _); [cbn; lia|]. destruct (mem (li_op i) _); [cbn; lia|]. destruct (String.eqb (li_op i) _); cbn; lia. Qed.
Lemma str_nat_numeral n : numeral (str_nat n) = true.
Proof.
  unfold numeral. pose proof (str_nat_digits n) as H. apply andb_true_intro. split.
  - unfold str_nat. destruct (uint_string_shape (Nat.to_uint n)) as (c & s & Q & _). rewrite Q. reflexivity.
  - apply forallb_forall. intros c I. apply H. exact I.
Qed.

(** ** Phi functions *)
Lemma phis_count phis others : (forall i, In i phis -> li_op i = "PhiFunction") -> (forall i, In i others -> li_op i <> "PhiFunction") -> phi_count (phis ++ others) = length phis.
Proof.
  intros A B. induction phis as [|i phis IH]; cbn [app phi_count length].
  - destruct others as [|j o]; [reflexivity|]. cbn [phi_count]. destruct (String.eqb_spec (li_op j) "PhiFunction") as [Q|]; [elim (B j (or_introl eq_refl) Q)|reflexivity].
  - rewrite (A i (or_introl eq_refl)), String.eqb_refl, IH; [reflexivity|]. intros; apply A; now right.
Qed.
Lemma phis_insert l i : li_op i <> "PhiFunction" -> phis_first l -> phis_first (insert_at (phi_count l) i l) /\ phi_count (insert_at (phi_count l) i l) = phi_count l.
Proof.
  intros N (ph & ot & -> & A & B). rewrite (phis_count ph ot A B). unfold insert_at. rewrite firstn_app, skipn_app, firstn_all, skipn_all, Nat.sub_diag. cbn [firstn skipn]. rewrite app_nil_r. cbn [app].
  assert (B' : forall j, In j (i :: ot) -> li_op j <> "PhiFunction") by (intros j [<-|I]; [exact N|auto]).
  split; [exists ph, (i :: ot); auto|]. apply phis_count; auto.
Qed.
Lemma phis_snoc l m : (forall i, In i m -> li_op i <> "PhiFunction") -> phis_first l -> phis_first (l ++ m).
Proof.
  intros N (ph & ot & -> & A & B). exists ph, (ot ++ m). split; [now rewrite app_assoc|]. split; [exact A|]. intros i I. apply in_app_iff in I as [I|I]; auto.
Qed.
Lemma phis_prefix l m : phis_first (l ++ m) -> phis_first l.
Proof.
  intros (ph & ot & Q & A & B). revert l Q A. induction ph as [|i ph IH]; intros l Q A.
  - cbn in Q. exists [], l. split; [reflexivity|]. split; [intros i []|]. intros i I. apply B. rewrite <- Q. apply in_app_iff. now left.
  - destruct l as [|j l]; [exists [], []; split; [reflexivity|]; split; intros ? []|]. cbn in Q. injection Q as -> Q. destruct (IH l Q) as (p2 & o2 & -> & A2 & B2); [intros; apply A; now right|].
    exists (i :: p2), o2. split; [reflexivity|]. split; [|exact B2]. intros k [<-|I]; [apply A; now left|auto].
Qed.
Lemma phis_suffix l i m : phis_first (l ++ i :: m) -> li_op i <> "PhiFunction" -> forall j, In j m -> li_op j <> "PhiFunction".
Proof.
  intros (ph & ot & Q & A & B) N. revert l Q A. induction ph as [|k ph IH]; intros l Q A j I.
  - cbn in Q. apply B. rewrite <- Q. apply in_app_iff. right. now right.
  - destruct l as [|k' l]; cbn in Q; injection Q as -> Q; [elim N; apply A; now left|]. eapply IH; eauto. intros; apply A; now right.
Qed.
Lemma phis_none l : (forall j, In j l -> li_op j <> "PhiFunction") -> phis_first l.
Proof. intros H. exists [], l. split; [reflexivity|]. split; [intros i []|exact H]. Qed.

(** ** The shape of blocks *)
(** Instructions that do not transfer control, and the end of a block. *)
Definition inner (l : list linstr) : Prop := forall i, In i l -> ~ In (li_op i) leaving /\ (li_op i = "PUSH [tag]" -> exists t, i = push_tag t).
Definition tidy (b : cblock) : Prop := inner (removelast (cb_instrs b))
  /\ forall pre i, cb_instrs b = pre ++ [i] -> li_op i <> "PUSH [tag]" /\ (li_op i = "functionReturn" -> cb_type b = "FunctionReturn")
    /\ (li_op i = "JUMP" -> cb_type b = "unconditional") /\ (li_op i = "JUMPI" -> cb_type b = "conditional").
Lemma tidy_snoc b m i : cb_instrs b = m ++ [i] -> inner m -> li_op i <> "PUSH [tag]" -> ((li_op i = "functionReturn" -> cb_type b = "FunctionReturn")
    /\ (li_op i = "JUMP" -> cb_type b = "unconditional") /\ (li_op i = "JUMPI" -> cb_type b = "conditional")) -> tidy b.
Proof. intros Q I P F. split; [rewrite Q, removelast_last; exact I|]. intros pre j QJ. rewrite Q in QJ. apply app_inj_tail in QJ as (_ & <-). auto. Qed.
Lemma tidy_inner b m i : tidy b -> cb_instrs b = m ++ [i] -> inner m.
Proof. intros (H & _) Q. rewrite Q, removelast_last in H. exact H. Qed.
Lemma inner_sub l m : (forall i, In i l -> In i m) -> inner m -> inner l.
Proof. intros H I i J. auto. Qed.
Lemma inner_push l t : inner l -> inner (l ++ [push_tag t]).
Proof. intros H i I. apply in_app_iff in I as [I|[<-|[]]]; [auto|]. split; [cbn; intuition discriminate|eauto]. Qed.
Lemma removelast_In {A} (l : list A) x : In x (removelast l) -> In x l.
Proof. induction l as [|a l IH]; [intros []|]. cbn [removelast]. destruct l as [|b l]; [intros []|]. intros [<-|I]; [now left|right; auto]. Qed.
Section Exits.
Variable fns : list string.
Variable ret : option string.
(** Exits after insertion. *)
Record exits (tags : tag_dict) (b : cblock) : Prop := {
  ex_jump : cb_type b = "unconditional" -> exists pre j t, cb_jump_to b = Some j /\ cb_falls_to b = None /\ lookup j tags = Some t
    /\ cb_instrs b = pre ++ [push_tag t; jump_instr t];
  ex_jumpi : cb_type b = "conditional" -> exists pre j f c t, cb_jump_to b = Some j /\ cb_falls_to b = Some f /\ cb_cond b = Some c /\ lookup j tags = Some t
    /\ cb_instrs b = pre ++ [push_tag t; jumpi_instr t c];
  ex_return : cb_type b = "FunctionReturn" -> successors b = [] /\ exists pre r vs, ret = Some r /\ ~ In r vs
    /\ cb_instrs b = pre ++ [{| li_op := "functionReturn"; li_ins := r :: vs; li_outs := []; li_lits := None |}];
  ex_other : cb_type b <> "unconditional" -> cb_type b <> "conditional" -> cb_jump_to b = None;
  ex_phis : phis_first (cb_instrs b);
  ex_split : forall i, cb_split b = Some i -> In (li_op i) (leaving ++ fns) /\ exists pre, cb_instrs b = pre ++ [i];
  ex_tidy : tidy b
}.
Lemma exits_tags tags tags' b : (forall j t, In j (successors b) -> lookup j tags = Some t -> lookup j tags' = Some t) -> exits tags b -> exits tags' b.
Proof.
  intros H [A B C D P SP JL]. split; auto.
  - intros T. destruct (A T) as (pre & j & t & J & F & L & I). exists pre, j, t. split; [exact J|]. split; [exact F|]. split; [|exact I]. apply H; [|exact L].
    unfold successors. rewrite J. now left.
  - intros T. destruct (B T) as (pre & j & f & c & t & J & F & Co & L & I). exists pre, j, f, c, t. repeat split; auto. apply H; [|exact L].
    unfold successors. rewrite J. now left.
Qed.
Lemma exits_edit tags tags' cur b : (forall j t, lookup j tags = Some t -> lookup (subst cur (first_id cur) j) tags' = Some t) -> exits tags b -> exits tags' (edit cur b).
Proof.
  intros H [A B C D P SP JL]. split; [| | | |exact P|exact SP|exact JL].
  - intros T. destruct (A T) as (pre & j & t & J & F & L & I). exists pre, (subst cur (first_id cur) j), t. cbn. rewrite J, F. cbn. auto.
  - intros T. destruct (B T) as (pre & j & f & c & t & J & F & Co & L & I). exists pre, (subst cur (first_id cur) j), (subst cur (first_id cur) f), c, t. cbn. rewrite J, F. cbn. repeat split; auto.
  - intros T. destruct (C T) as (SU & R). split; [|exact R]. change (successors (edit cur b)) with (successors (relink cur (first_id cur) b)). rewrite successors_relink, SU. reflexivity.
  - intros T1 T2. cbn. rewrite (D T1 T2). reflexivity.
Qed.

(** Calls without tags. *)
Definition untagged (l : list linstr) : Prop := forall i, In i l -> In (li_op i) fns -> forall v, In v (li_ins i) -> numeral v = false.
Definition unsplit (tags : tag_dict) (b : cblock) : Prop := exits tags b /\ untagged (cb_instrs b).
Lemma unsplit_tags tags tags' b : (forall j t, In j (successors b) -> lookup j tags = Some t -> lookup j tags' = Some t) -> unsplit tags b -> unsplit tags' b.
Proof. intros H (X & U). split; [now apply (exits_tags tags)|exact U]. Qed.
End Exits.
Section Shapes.
Variable f2t : tag_dict.
Variable ret : option string.
Hypothesis reserved : forall f, In f (map fst f2t) -> ~ In f ["PUSH [tag]"; "JUMP"; "JUMPI"; "functionReturn"; "PhiFunction"].
Let E := before (map fst f2t) ret.

(** Calls after splitting. *)
Record settled (tags : tag_dict) (b : cblock) : Prop := {
  se_split : In (cb_type b) ["unconditional"; "conditional"; "FunctionReturn"] -> exists pre i, cb_instrs b = pre ++ [i] /\ cb_split b = Some i;
  se_calls : forall pre i post t, cb_instrs b = pre ++ i :: post -> lookup (li_op i) f2t = Some t ->
    post = [] /\ cb_split b = Some i /\ exists args back, (forall v, In v args -> numeral v = false) /\ In (push_tag t) (cb_instrs b) /\ li_ins i = str_nat t :: args ++ back
    /\ match successors b with
       | [] => back = []
       | next :: more => more = [] /\ exists t', lookup next tags = Some t' /\ In (push_tag t') (cb_instrs b) /\ back = [str_nat t']
       end;
  se_exact : forall pre i, cb_instrs b = pre ++ [i] -> In (li_op i) (leaving ++ map fst f2t) -> cb_split b = Some i
}.
Lemma settled_tags tags tags' b : (forall j t, In j (successors b) -> lookup j tags = Some t -> lookup j tags' = Some t) -> settled tags b -> settled tags' b.
Proof.
  intros H [A B X]. split; [exact A| |exact X]. intros pre i post t I L. destruct (B pre i post t I L) as (P & Q & args & back & NV & U & V & W). split; [exact P|]. split; [exact Q|].
  exists args, back. split; [exact NV|]. split; [exact U|]. split; [exact V|]. destruct (successors b) as [|n m] eqn:SU; [exact W|]. destruct W as (M & t' & L' & R). split; [exact M|].
  exists t'. split; [|exact R]. apply H; [now left|exact L'].
Qed.
Lemma settled_edit tags tags' cur b : (forall j t, lookup j tags = Some t -> lookup (subst cur (first_id cur) j) tags' = Some t) -> settled tags b -> settled tags' (edit cur b).
Proof.
  intros H [A B X]. split; [exact A| |exact X]. intros pre i post t I L. destruct (B pre i post t I L) as (P & Q & args & back & NV & U & V & W). split; [exact P|]. split; [exact Q|].
  exists args, back. split; [exact NV|]. split; [exact U|]. split; [exact V|]. change (successors (edit cur b)) with (successors (relink cur (first_id cur) b)). rewrite successors_relink.
  destruct (successors b) as [|n m]; [exact W|]. cbn [map]. destruct W as (M & t' & L' & R). subst m. split; [reflexivity|]. exists t'. auto.
Qed.

(** Erasure of the additions. *)
Lemma E_push t : E (Do (push_tag t)) = []. Proof. reflexivity. Qed.
Lemma E_jump t : E (Do (jump_instr t)) = []. Proof. reflexivity. Qed.
Lemma E_jumpi t c : E (Do (jumpi_instr t c)) = []. Proof. reflexivity. Qed.
Definition same_call (i i' : linstr) : Prop :=
  li_op i' = li_op i /\ li_outs i' = li_outs i /\ li_lits i' = li_lits i /\ exists ft back, li_ins i' = str_nat ft :: li_ins i ++ back /\ (back = [] \/ exists n, back = [str_nat n]).
Lemma E_call i i' t : lookup (li_op i) f2t = Some t -> same_call i i' -> E (Do i') = E (Do i).
Proof.
  intros L (O & U & LT & ft & back & I & B). apply lookup_In_key in L. pose proof (reserved _ L) as R. unfold E, before. rewrite O, U, I, LT.
  replace (mem (li_op i) ["PUSH [tag]"; "JUMP"; "JUMPI"]) with false by (symmetry; apply mem_false; cbn in *; tauto).
  replace (mem (li_op i) (map fst f2t)) with true by (symmetry; apply mem_In; exact L).
  cbn [filter]. rewrite str_nat_numeral. cbn [negb]. rewrite filter_app. destruct B as [->|(n & ->)]; cbn [filter]; rewrite ?str_nat_numeral; cbn [negb]; now rewrite app_nil_r.
Qed.
Definition shown (l : list linstr) : list event := flat_map E (map Do l).
Lemma shown_app a b : shown (a ++ b) = shown a ++ shown b. Proof. unfold shown. now rewrite map_app, flat_map_app. Qed.
Lemma shown_insert n t l : shown (insert_at n (push_tag t) l) = shown l.
Proof. unfold insert_at. rewrite shown_app. change (shown (push_tag t :: skipn n l)) with (shown (skipn n l)). rewrite <- shown_app, firstn_skipn. reflexivity. Qed.
Lemma phi_count_le l i : li_op i <> "PhiFunction" -> phi_count (l ++ [i]) <= length l.
Proof.
  intros N. induction l as [|j l IH]; cbn [app phi_count length].
  - destruct (String.eqb_spec (li_op i) "PhiFunction"); [contradiction|lia].
  - destruct (String.eqb _ _); lia.
Qed.
Lemma insert_snoc {A} n (x : A) l y : n <= length l -> insert_at n x (l ++ [y]) = insert_at n x l ++ [y].
Proof. intros H. unfold insert_at. rewrite firstn_app, skipn_app. replace (n - length l) with 0 by lia. cbn. rewrite app_nil_r, <- app_assoc. reflexivity. Qed.
Lemma insert_length {A} n (x : A) l : length (insert_at n x l) = S (length l).
Proof. unfold insert_at. rewrite app_length. cbn [length]. rewrite firstn_length, skipn_length. lia. Qed.
Lemma insert_In {A} n (x y : A) l : In y (insert_at n x l) <-> y = x \/ In y l.
Proof. unfold insert_at. rewrite <- (firstn_skipn n l) at 3. rewrite !in_app_iff. cbn. intuition. Qed.
Lemma inner_insert n t l : inner l -> inner (insert_at n (push_tag t) l).
Proof. intros H i I. apply insert_In in I as [->|I]; [split; [cbn; intuition discriminate|eauto]|auto]. Qed.
Lemma replace_snoc i j l : replace_last i (l ++ [j]) = l ++ [i].
Proof. unfold replace_last. now rewrite removelast_last. Qed.
Definition callfree (l : list linstr) : Prop := forall i, In i l -> lookup (li_op i) f2t = None.
Lemma callfree_snoc pre i post (l : list linstr) j : callfree l -> l ++ [j] = pre ++ i :: post -> lookup (li_op i) f2t <> None -> post = [] /\ i = j /\ pre = l.
Proof.
  intros C Q N. destruct (snoc_cases post) as [->|(post' & k & ->)].
  - apply app_inj_tail in Q as (-> & ->). auto.
  - exfalso. rewrite app_comm_cons, app_assoc in Q. apply app_inj_tail in Q as (-> & _). apply N, C. apply in_app_iff. right. now left.
Qed.
Lemma push_plain t : lookup (li_op (push_tag t)) f2t = None.
Proof. apply lookup_None. intros I. apply (reserved _ I). now left. Qed.
Lemma callfree_insert n t l : callfree l -> callfree (insert_at n (push_tag t) l).
Proof. intros C i I. apply insert_In in I as [->|I]; [apply push_plain|auto]. Qed.
End Shapes.
