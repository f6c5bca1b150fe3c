(** C36: inlining, first part: the block list after inlining, block by block. *)
From Verif Require Import Base UtilModel UtilProps UnifyProps LiveModel CfgModel CfgSpec CfgProps RenameModel InlineModel.
Open Scope string_scope. Open Scope list_scope.

(** ** Dictionaries built from two lists *)
Lemma update_zip_fresh ks : forall vs d, NoDup ks -> (forall k, In k ks -> ~ In k (map fst d)) -> update_zip ks vs d = d ++ combine ks vs.
Proof.
  unfold update_zip. induction ks as [|k ks IH]; intros [|v vs] d N F; cbn [combine fold_left]; rewrite ?app_nil_r; auto.
  inversion N as [|? ? Nk N']; subst. cbn [fst snd]. assert (E : dict_set k v d = d ++ [(k, v)]).
  { assert (Q := F k (or_introl eq_refl)). clear -Q. induction d as [|[k' v'] d IH]; [reflexivity|]. simpl in *. destruct (String.eqb_spec k' k); [subst; tauto|]. f_equal. apply IH. tauto. }
  rewrite E, IH; [rewrite <- app_assoc; reflexivity|exact N'|]. intros k' I. rewrite map_app, in_app_iff. simpl. intros [Q|[Q|[]]]; [eapply F; [right; exact I|exact Q]|congruence].
Qed.
Lemma update_zip_nil ks vs : NoDup ks -> update_zip ks vs [] = combine ks vs.
Proof. intros N. rewrite update_zip_fresh; simpl; auto. Qed.
Definition pairs_differ (ks vs : list string) : Prop := forall k v, In (k, v) (combine ks vs) -> k <> v.
Lemma all_changed_true ks vs : pairs_differ ks vs -> all_changed (combine ks vs) = true.
Proof. intros H. unfold all_changed. apply forallb_forall. intros [k v] I. simpl. destruct (String.eqb_spec k v); [|reflexivity]. destruct (H k v I e). Qed.

(** ** Renamed block lists *)
Lemma lookup_rename d g x : lookup x (cl_blocks (rename_blocks d g)) = option_map (rename_block d) (lookup x (cl_blocks g)).
Proof. unfold rename_blocks. cbn [cl_blocks]. induction (cl_blocks g) as [|[k b] l IH]; [reflexivity|]. simpl. destruct (String.eqb_spec k x); [reflexivity|exact IH]. Qed.
Lemma keys_rename d g : map fst (cl_blocks (rename_blocks d g)) = map fst (cl_blocks g).
Proof. unfold rename_blocks. cbn [cl_blocks]. rewrite map_map. reflexivity. Qed.
Lemma rename_var_nil x : rename_var [] x = x. Proof. unfold rename_var. simpl. destruct (startswith "0x" x); reflexivity. Qed.
Lemma rename_list_nil l : rename_var_list [] l = l. Proof. induction l; simpl; [reflexivity|]. rewrite rename_var_nil. f_equal. exact IHl. Qed.
Lemma rename_instr_nil i : rename_instr [] i = i. Proof. destruct i. unfold rename_instr. simpl. rewrite !rename_list_nil. reflexivity. Qed.
Lemma rename_block_nil b : rename_block [] b = b.
Proof.
  destruct b as [i t j f c cf e s]. unfold rename_block. simpl. f_equal.
  - induction i; simpl; [reflexivity|]. rewrite rename_instr_nil. f_equal. exact IHi.
  - destruct c; simpl; rewrite ?rename_var_nil; reflexivity.
  - destruct s; simpl; rewrite ?rename_instr_nil; reflexivity.
Qed.
Lemma rename_consistent d g : consistent g -> consistent (rename_blocks d g).
Proof.
  intros C. assert (D : forall a b, departures (rename_blocks d g) a b = departures g a b) by (intros; unfold departures; rewrite lookup_rename; destruct (lookup a (cl_blocks g)); reflexivity).
  assert (A : forall a b, arrivals (rename_blocks d g) a b = arrivals g a b) by (intros; unfold arrivals; rewrite lookup_rename; destruct (lookup b (cl_blocks g)); reflexivity).
  assert (T : forall types x, has_type types (rename_blocks d g) x <-> has_type types g x).
  { intros types x. unfold has_type. rewrite lookup_rename. destruct (lookup x (cl_blocks g)) as [b|]; simpl; split; intros (b0 & H & I); try discriminate; injection H as <-; eauto. }
  constructor.
  - rewrite keys_rename. apply C.
  - intros a b. rewrite D, A. apply C.
  - intros x b. rewrite lookup_rename. destruct (lookup x (cl_blocks g)) as [b0|] eqn:L; [|discriminate]. intros H. injection H as <-. apply (c_entries g C x b0 L).
  - rewrite keys_rename. apply C.
  - intros x. rewrite T. apply C.
  - intros x. rewrite T. apply C.
Qed.

(** ** The blocks of the function join the list *)
Lemma add_one_block k b g : cl_blocks g <> [] ->
  exists g', add_block k b false g = Ok g' /\ cl_blocks g' = dict_set k b (cl_blocks g) /\ cl_start g' = cl_start g
    /\ (forall x, In x (cl_terminal g') <-> In x (cl_terminal g) \/ x = k /\ In (cb_type b) ["FunctionReturn"; "mainExit"; "terminal"])
    /\ (forall x, In x (cl_return g') <-> In x (cl_return g) \/ x = k /\ In (cb_type b) ["FunctionReturn"]).
Proof.
  intros N. destruct (add_block_ok k b false g) as (g' & E & B & S & T & R); [intros [H|H]; [tauto|discriminate]|].
  exists g'. split; [exact E|]. split; [exact B|]. split; [|auto]. rewrite S. destruct (cl_blocks g); [tauto|reflexivity].
Qed.
Lemma include_lookup : forall l g, NoDup (map fst l) -> NoDup (map fst (cl_blocks g)) -> cl_blocks g <> [] ->
  exists g', for_each (fun g kb => add_block (fst kb) (no_return (snd kb)) false g) l g = Ok g' /\ NoDup (map fst (cl_blocks g'))
    /\ (forall x, lookup x (cl_blocks g') = match lookup x l with Some b => Some (no_return b) | None => lookup x (cl_blocks g) end)
    /\ cl_start g' = cl_start g
    /\ (forall x, In x (cl_terminal g') <-> In x (cl_terminal g) \/ exists b, lookup x l = Some b /\ In (cb_type b) ["mainExit"; "terminal"])
    /\ (forall x, In x (cl_return g') <-> In x (cl_return g)).
Proof.
  induction l as [|[k b] l IH]; intros g N Ng NE.
  { exists g. split; [reflexivity|]. split; [exact Ng|]. split; [reflexivity|]. split; [reflexivity|]. split; [|reflexivity]. intros x. split; [auto|]. intros [H|(b & H & _)]; [exact H|discriminate]. }
  inversion N as [|? ? Nk N']; subst. cbn [for_each fst snd]. destruct (add_one_block k (no_return b) g NE) as (g1 & E1 & B1 & S1 & T1 & R1). rewrite E1. cbn [bind].
  destruct (IH g1 N') as (g' & E & ND & L & S & T & R).
  - rewrite B1. apply dict_set_NoDup, Ng.
  - rewrite B1. intros Q. assert (Z : lookup k (dict_set k (no_return b) (cl_blocks g)) = Some (no_return b)) by (rewrite lookup_dict_set, String.eqb_refl; reflexivity). rewrite Q in Z. discriminate.
  - exists g'. split; [exact E|]. split; [exact ND|].
    assert (KL : lookup k l = None). { destruct (lookup k l) as [bk|] eqn:Q; [|reflexivity]. apply lookup_In_key in Q. tauto. }
    assert (TY : forall types, ~ In "FunctionReturn" types -> ~ In "unconditional" types -> In (cb_type (no_return b)) types <-> In (cb_type b) types).
    { intros types F U. unfold no_return. destruct (String.eqb_spec (cb_type b) "FunctionReturn") as [Q|]; [|reflexivity]. rewrite Q. simpl. tauto. }
    assert (TR : cb_type (no_return b) <> "FunctionReturn") by (unfold no_return; destruct (String.eqb_spec (cb_type b) "FunctionReturn"); [discriminate|auto]).
    split; [|split; [congruence|split]].
    + intros x. rewrite L, B1, lookup_dict_set. simpl. destruct (String.eqb_spec k x); [subst; rewrite KL; reflexivity|reflexivity].
    + intros x. rewrite T, T1. simpl (lookup x ((k, b) :: l)). destruct (String.eqb_spec k x) as [->|Nx].
      * rewrite KL. split.
        -- intros [[H|[_ H]]|(b0 & H & _)]; [auto| |discriminate]. right. exists b. split; [reflexivity|]. apply TY; [simpl; intuition discriminate|simpl; intuition discriminate|]. simpl in *. intuition.
        -- intros [H|(b0 & H & I)]; [auto|]. injection H as <-. left; right. split; [reflexivity|]. apply TY in I; [|simpl; intuition discriminate|simpl; intuition discriminate]. simpl in *. intuition.
      * split; [intros [[H|[H _]]|H]; [auto|congruence|auto]|]. intros [H|H]; auto.
    + intros x. rewrite R, R1. split; [|auto]. intros [H|[_ H]]; [exact H|]. simpl in H. destruct H as [H|[]]. destruct (TR (eq_sym H)).
Qed.

Lemma find_split (F : clist) g x : (forall k, In k (map fst (cl_blocks F)) -> ~ In k (map fst (cl_blocks g))) ->
  (exists b, lookup x (cl_blocks F) = Some b /\ lookup x (cl_blocks g) = None) \/ lookup x (cl_blocks F) = None.
Proof.
  intros D. destruct (lookup x (cl_blocks F)) as [b|] eqn:L; [left|auto]. exists b. split; [reflexivity|]. destruct (lookup x (cl_blocks g)) as [c|] eqn:Q; [|reflexivity].
  exfalso. apply (D x); eapply lookup_In_key; eauto.
Qed.
Lemma no_return_succ b : successors (no_return b) = successors b /\ cb_comes_from (no_return b) = cb_comes_from b /\ cb_entries (no_return b) = cb_entries b /\ cb_instrs (no_return b) = cb_instrs b
  /\ cb_cond (no_return b) = cb_cond b /\ cb_jump_to (no_return b) = cb_jump_to b /\ cb_falls_to (no_return b) = cb_falls_to b.
Proof. unfold no_return. destruct (cb_type b =? "FunctionReturn")%string; repeat split. Qed.

Lemma include_consistent (F g : clist) : consistent F -> consistent g -> (forall k, In k (map fst (cl_blocks F)) -> ~ In k (map fst (cl_blocks g))) ->
  exists g1, for_each (fun g kb => add_block (fst kb) (no_return (snd kb)) false g) (cl_blocks F) g = Ok g1 /\ consistent g1
    /\ (forall x, lookup x (cl_blocks g1) = match lookup x (cl_blocks F) with Some b => Some (no_return b) | None => lookup x (cl_blocks g) end)
    /\ cl_start g1 = cl_start g.
Proof.
  intros CF CG D. assert (NE : cl_blocks g <> []). { destruct (c_start g CG) as (s & _ & I). intros Q. rewrite Q in I. destruct I. }
  destruct (include_lookup (cl_blocks F) g (c_keys F CF) (c_keys g CG) NE) as (g1 & E & ND & L & S & T & R). exists g1. split; [exact E|]. split; [|auto].
  assert (DP : forall a b, departures g1 a b = departures F a b + departures g a b).
  { intros a b. unfold departures. rewrite L. destruct (find_split F g a D) as [(ba & Q1 & Q2)|Q]; [rewrite Q1, Q2; destruct (no_return_succ ba) as [-> _]; lia|rewrite Q; lia]. }
  assert (AR : forall a b, arrivals g1 a b = arrivals F a b + arrivals g a b).
  { intros a b. unfold arrivals. rewrite L. destruct (find_split F g b D) as [(bb & Q1 & Q2)|Q]; [rewrite Q1, Q2; destruct (no_return_succ bb) as [_ [-> _]]; lia|rewrite Q; lia]. }
  constructor.
  - exact ND.
  - intros a b. rewrite DP, AR, (c_links F CF), (c_links g CG). reflexivity.
  - intros x b. rewrite L. destruct (lookup x (cl_blocks F)) as [bf|] eqn:LF.
    + intros H. injection H as <-. destruct (no_return_succ bf) as (_ & -> & -> & _). apply (c_entries F CF x bf LF).
    + apply (c_entries g CG).
  - rewrite S. destruct (c_start g CG) as (s & Hs & I). exists s. split; [exact Hs|]. destruct (key_lookup s _ I) as (bs & Ls). 
    assert (Q : lookup s (cl_blocks F) = None). { destruct (find_split F g s D) as [(b & Q1 & Q2)|Q]; [congruence|exact Q]. }
    apply (lookup_In_key _ bs). rewrite L, Q. exact Ls.
  - intros x. rewrite T, (c_terminal g CG). unfold has_type. rewrite L. destruct (find_split F g x D) as [(b & Q1 & Q2)|Q]; [rewrite Q1, Q2|rewrite Q].
    + split.
      * intros [(b0 & H & _)|(b0 & H & I)]; [discriminate|]. injection H as <-. exists (no_return b). split; [reflexivity|]. unfold no_return. destruct (String.eqb_spec (cb_type b) "FunctionReturn") as [Z|]; [rewrite Z in I; simpl in I; intuition discriminate|]. simpl in *. intuition.
      * intros (b0 & H & I). injection H as <-. right. exists b. split; [reflexivity|]. unfold no_return in I. destruct (String.eqb_spec (cb_type b) "FunctionReturn") as [Z|Z]; [simpl in I; intuition discriminate|]. simpl in I |- *. destruct I as [I|I]; [destruct (Z (eq_sym I))|]. exact I.
    + split; [intros [H|(b0 & H & _)]; [exact H|discriminate]|auto].
  - intros x. rewrite R, (c_return g CG). unfold has_type. rewrite L. destruct (find_split F g x D) as [(b & Q1 & Q2)|Q]; [rewrite Q1, Q2|rewrite Q; reflexivity].
    split; [intros (b0 & H & _); discriminate|]. intros (b0 & H & I). injection H as <-. unfold no_return in I. destruct (String.eqb_spec (cb_type b) "FunctionReturn") as [Z|Z]; simpl in I; destruct I as [I|[]]; [discriminate|]. destruct (Z (eq_sym I)).
Qed.

(** ** The loops over the exits *)
Definition is_return (b : cblock) (pre : list linstr) (rets : list string) : Prop :=
  exists i, cb_instrs b = pre ++ [i] /\ li_op i = "functionReturn" /\ li_ins i = rets.
Lemma put_block_lookup k b g x : lookup x (cl_blocks (put_block k b g)) = if String.eqb k x then Some b else lookup x (cl_blocks g).
Proof. unfold put_block. cbn [cl_blocks]. apply lookup_dict_set. Qed.

Lemma connect_exit_ok s e h rs sb be pre i : e <> s -> lookup s (cl_blocks h) = Some sb -> ~ In e (cb_comes_from sb) -> lookup e (cl_blocks h) = Some be ->
  cb_instrs be = pre ++ [i] -> li_op i = "functionReturn" ->
  connect_exit s (h, rs) e = Ok (put_block s (add_comes_from e sb) (put_block e (set_jump_to (Some s) be) h), rs ++ [li_ins i]).
Proof.
  intros Nse LS NC LE EI OP. unfold connect_exit. cbn [fst snd]. unfold modify_successors, get_block. rewrite LE. cbn [of_option bind].
  rewrite put_block_lookup. destruct (String.eqb_spec e s); [congruence|]. rewrite LS. cbn [of_option bind].
  apply mem_false in NC. rewrite NC.
  rewrite put_block_lookup. destruct (String.eqb_spec s e); [congruence|]. rewrite put_block_lookup, String.eqb_refl. cbn [of_option bind].
  change (cb_instrs (set_jump_to (Some s) be)) with (cb_instrs be). rewrite EI, rev_app_distr. cbn [rev app]. rewrite OP. reflexivity.
Qed.
Lemma connect_exits s : forall es h rs sb (R : string -> list string), NoDup es -> ~ In s es -> lookup s (cl_blocks h) = Some sb -> (forall e, In e es -> ~ In e (cb_comes_from sb)) ->
  (forall e, In e es -> exists be pre, lookup e (cl_blocks h) = Some be /\ is_return be pre (R e)) ->
  exists h', for_each (connect_exit s) es (h, rs) = Ok (h', rs ++ map R es) /\ same_shape h h'
    /\ (forall x, lookup x (cl_blocks h') = if String.eqb x s then Some (set_comes_from (cb_comes_from sb ++ es) sb)
          else if mem x es then option_map (set_jump_to (Some s)) (lookup x (cl_blocks h)) else lookup x (cl_blocks h)).
Proof.
  induction es as [|e es IH]; intros h rs sb R N NS LS NC HE.
  { exists h. split; [simpl; rewrite app_nil_r; reflexivity|]. split; [apply same_shape_refl|]. intros x. simpl. destruct (String.eqb_spec x s); [|reflexivity]. subst. rewrite LS, app_nil_r. destruct sb; reflexivity. }
  inversion N as [|? ? Ne N']; subst. destruct (HE e (or_introl eq_refl)) as (be & pre & LE & i & EI & OP & IR). cbn [for_each].
  assert (Nse : s <> e) by (intros Q; apply NS; simpl; auto).
  rewrite (connect_exit_ok s e h rs sb be pre i) by (auto using not_eq_sym; apply NC; simpl; auto). cbn [bind].
  set (h1 := put_block s (add_comes_from e sb) (put_block e (set_jump_to (Some s) be) h)).
  assert (L1 : forall x, lookup x (cl_blocks h1) = if String.eqb s x then Some (add_comes_from e sb) else if String.eqb e x then Some (set_jump_to (Some s) be) else lookup x (cl_blocks h)).
  { intros x. unfold h1. rewrite !put_block_lookup. reflexivity. }
  assert (SH : same_shape h h1).
  { unfold h1. eapply same_shape_trans; [apply put_shape; eapply lookup_In_key; eauto|]. apply put_shape. apply (lookup_In_key _ sb). rewrite put_block_lookup. destruct (String.eqb_spec e s); congruence. }
  destruct (IH h1 (rs ++ [li_ins i]) (add_comes_from e sb) R) as (h' & E & SH' & L').
  - exact N'.
  - simpl in NS. tauto.
  - rewrite L1, String.eqb_refl. reflexivity.
  - intros e' I Q. simpl in Q. apply in_app_iff in Q as [Q|[Q|[]]]; [apply (NC e'); simpl; auto|]. subst. tauto.
  - intros e' I. destruct (HE e' (or_intror I)) as (be' & pre' & LE' & H). exists be', pre'. split; [|exact H]. rewrite L1. destruct (String.eqb_spec s e'); [subst; simpl in NS; tauto|]. destruct (String.eqb_spec e e'); [subst; tauto|exact LE'].
  - exists h'. split; [rewrite E, IR, <- app_assoc; reflexivity|]. split; [eapply same_shape_trans; eauto|]. intros x. rewrite L'. destruct (String.eqb_spec x s) as [->|Nx].
    + unfold add_comes_from. cbn [cb_comes_from set_comes_from]. rewrite <- app_assoc. reflexivity.
    + change (mem x (e :: es)) with (String.eqb x e || mem x es)%bool. rewrite L1. destruct (String.eqb_spec s x); [congruence|]. destruct (String.eqb_spec e x) as [->|Nex].
      * rewrite String.eqb_refl. cbn [orb]. assert (M' : mem x es = false) by (apply mem_false; exact Ne). rewrite M', LE. reflexivity.
      * destruct (String.eqb_spec x e); [congruence|]. reflexivity.
Qed.

Definition drop_last (b : cblock) : cblock := set_split None (set_instrs (removelast (cb_instrs b)) b).
Lemma removelast_snoc {A} (l : list A) a : removelast (l ++ [a]) = l. Proof. apply removelast_last. Qed.
Lemma pop_instr_ok id g b pre i : lookup id (cl_blocks g) = Some b -> cb_instrs b = pre ++ [i] -> pop_instr id g = Ok (i, put_block id (drop_last b) g).
Proof. intros L E. unfold pop_instr, get_block, drop_last. rewrite L. cbn [of_option bind]. rewrite E, rev_app_distr. cbn [rev app]. rewrite rev_involutive, removelast_snoc. reflexivity. Qed.

Lemma remove_returns : forall es h, NoDup es -> (forall e, In e es -> exists be pre rets, lookup e (cl_blocks h) = Some be /\ is_return be pre rets) ->
  exists h', for_each remove_return es h = Ok h' /\ same_shape h h'
    /\ (forall x, lookup x (cl_blocks h') = if mem x es then option_map drop_last (lookup x (cl_blocks h)) else lookup x (cl_blocks h)).
Proof.
  induction es as [|e es IH]; intros h N HE; [exists h; split; [reflexivity|]; split; [apply same_shape_refl|reflexivity]|].
  inversion N as [|? ? Ne N']; subst. destruct (HE e (or_introl eq_refl)) as (be & pre & rets & LE & i & EI & OP & _). cbn [for_each].
  unfold remove_return at 1. rewrite (pop_instr_ok e h be pre i LE EI). cbn [bind fst snd]. rewrite OP, String.eqb_refl. cbn [py_assert bind].
  destruct (IH (put_block e (drop_last be) h) N') as (h' & E & SH & L).
  - intros e' I. destruct (HE e' (or_intror I)) as (be' & pre' & rets' & LE' & H). exists be', pre', rets'. split; [|exact H]. rewrite put_block_lookup. destruct (String.eqb_spec e e'); [subst; tauto|exact LE'].
  - exists h'. split; [exact E|]. split; [eapply same_shape_trans; [apply put_shape; eapply lookup_In_key; eauto|exact SH]|].
    intros x. rewrite L, put_block_lookup. change (mem x (e :: es)) with (String.eqb x e || mem x es)%bool. destruct (String.eqb_spec e x) as [->|Nex].
    + rewrite String.eqb_refl. assert (M : mem x es = false) by (apply mem_false; exact Ne). rewrite M, LE. reflexivity.
    + destruct (String.eqb_spec x e); [congruence|reflexivity].
Qed.

(** ** The phi functions of several exits *)
Definition phi_for (returned : list (list string)) (i_out : nat * string) (i : linstr) : Prop :=
  li_op i = "PhiFunction" /\ li_outs i = [snd i_out] /\ Forall2 (fun rv v => nth_error rv (fst i_out) = Some v) returned (li_ins i).
Lemma values_ok n returned : (forall rv, In rv returned -> n < length rv) -> exists vs, map_result (fun rv : list string => of_option (nth_error rv n)) returned = Ok vs /\ Forall2 (fun rv v => nth_error rv n = Some v) returned vs.
Proof.
  induction returned as [|rv returned IH]; intros H; [exists []; split; [reflexivity|constructor]|]. cbn [map_result].
  assert (B := H rv (or_introl eq_refl)). destruct (nth_error rv n) as [v|] eqn:E; [|apply nth_error_None in E; lia]. cbn [of_option bind].
  destruct IH as (vs & E' & F); [intros; apply H; simpl; auto|]. rewrite E'. cbn [bind]. exists (v :: vs). split; [reflexivity|constructor; auto].
Qed.
Lemma insert_phis_ok returned : forall ios instrs, (forall io rv, In io ios -> In rv returned -> fst io < length rv) ->
  exists phis, for_each (insert_phi returned) ios instrs = Ok (rev phis ++ instrs) /\ Forall2 (phi_for returned) ios phis.
Proof.
  induction ios as [|io ios IH]; intros instrs H; [exists []; split; [reflexivity|constructor]|]. cbn [for_each].
  destruct (values_ok (fst io) returned) as (vs & E & F); [intros; apply H; simpl; auto|].
  assert (E1 : insert_phi returned instrs io = Ok ({| li_op := "PhiFunction"; li_ins := vs; li_outs := [snd io]; li_lits := None |} :: instrs)) by (unfold insert_phi; rewrite E; reflexivity).
  rewrite E1. cbn [bind].
  destruct (IH ({| li_op := "PhiFunction"; li_ins := vs; li_outs := [snd io]; li_lits := None |} :: instrs)) as (phis & E' & F'); [intros; apply H; simpl; auto|].
  exists ({| li_op := "PhiFunction"; li_ins := vs; li_outs := [snd io]; li_lits := None |} :: phis). split; [rewrite E'; simpl; rewrite <- app_assoc; reflexivity|]. constructor; [|exact F']. repeat split; auto.
Qed.

(** ** The calls that are inlined *)
Record inlinable (g : clist) (id : string) (b : cblock) (pos : nat) (call : linstr) (f : cfun) (ret : string -> list string) : Prop := {
  in_caller : consistent g;
  in_callee : consistent (f_blocks f);
  in_split : splittable g id b;
  in_call : nth_error (cb_instrs b) pos = Some call;
  in_name : startswith (li_op call) (f_name f) = true;
  in_arity : length (f_args f) = length (li_ins call);
  in_formals : NoDup (f_args f);
  in_actuals : pairs_differ (f_args f) (rev (li_ins call));
  in_apart : forall k, In k (map fst (cl_blocks (f_blocks f))) -> ~ In k (map fst (cl_blocks g)) /\ k <> first_id id /\ k <> second_id id;
  in_exits : NoDup (cl_return (f_blocks f));
  in_returns : forall e, In e (cl_return (f_blocks f)) -> exists be pre, lookup e (cl_blocks (f_blocks f)) = Some be
                /\ is_return be pre (ret e) /\ successors be = [] /\ cb_cond be = None /\ length (ret e) = length (li_outs call);
  in_outs : NoDup (li_outs call);
  in_results : forall e, cl_return (f_blocks f) = [e] -> pairs_differ (li_outs call) (rename_var_list (combine (f_args f) (rev (li_ins call))) (ret e))
}.

Section Blocks.
Variables (g : clist) (id : string) (b : cblock) (pos : nat) (call : linstr) (f : cfun) (ret : string -> list string).
Let F := f_blocks f.
Let exits := cl_return F.
(** formal arguments to actual arguments *)
Definition formals_to_actuals (call : linstr) (f : cfun) : dict := combine (f_args f) (rev (li_ins call)).
Let σ := formals_to_actuals call f.
(** with one exit, results of the call to values returned *)
Definition results_to_returned (call : linstr) (f : cfun) (ret : string -> list string) : dict :=
  match cl_return (f_blocks f) with [e] => combine (li_outs call) (rename_var_list (formals_to_actuals call f) (ret e)) | _ => [] end.
Let ρ := results_to_returned call f ret.
Definition before_call (start : string) : cblock :=
  set_split None (set_instrs (firstn pos (cb_instrs b)) (set_falls_to (Some start) (first_half id pos b))).
Definition after_call (phis : list linstr) : cblock :=
  set_comes_from exits (set_entries (if Nat.ltb 1 (length exits) then exits else []) (set_instrs (phis ++ skipn (pos + 1) (cb_instrs b)) (second_half id pos b))).
Definition linked (start x : string) (bf : cblock) : cblock :=
  let b1 := no_return (rename_block σ bf) in
  let b2 := if String.eqb x start then set_comes_from (cb_comes_from b1 ++ [first_id id]) b1 else b1 in
  if mem x exits then set_jump_to (Some (second_id id)) b2 else b2.

Lemma firstn_snoc {A} n (l : list A) a : nth_error l n = Some a -> firstn (n + 1) l = firstn n l ++ [a].
Proof. revert l. induction n; intros [|c l]; simpl; try discriminate; [intros H; injection H as ->; reflexivity|]. intros H. f_equal. apply IHn, H. Qed.

Lemma lookup_In_rename d h x : In x (map fst (cl_blocks (rename_blocks d h))) <-> In x (map fst (cl_blocks h)).
Proof. rewrite keys_rename. reflexivity. Qed.

Lemma linked_return start x bf : cb_instrs (linked start x bf) = map (rename_instr σ) (cb_instrs bf).
Proof. unfold linked. destruct (no_return_succ (rename_block σ bf)) as (_ & _ & _ & E & _). destruct (mem x exits), (x =? start)%string; simpl; exact E. Qed.
Lemma is_return_rename d be pre rets b' : cb_instrs b' = map (rename_instr d) (cb_instrs be) -> is_return be pre rets -> is_return b' (map (rename_instr d) pre) (rename_var_list d rets).
Proof. intros E (i & EI & OP & IR). exists (rename_instr d i). rewrite E, EI, map_app. repeat split; auto. unfold rename_instr. simpl. rewrite IR. reflexivity. Qed.

(** Up to the treatment of the results. *)
Lemma inline_first_part start : inlinable g id b pos call f ret -> cl_start F = Some start ->
  exists gA, (do b0 <- get_block id g;
    do call0 <- of_option (nth_error (cb_instrs b0) pos);
    do _ <- py_assert (startswith (li_op call0) (f_name f));
    do f1 <- rename_input_args f call0;
    do g1 <- include_blocks f1 g;
    do start0 <- of_option (cl_start (f_blocks f1));
    do g2 <- split_block id pos g1;
    do cg <- pop_instr (first_id id) g2;
    do g3 <- modify_successors (first_id id) (Some (second_id id)) start0 (snd cg);
    do g4 <- modify_comes_from start0 None (first_id id) g3;
    do sb <- get_block (second_id id) g4;
    for_each (connect_exit (second_id id)) (cl_return (f_blocks f1)) (put_block (second_id id) (set_comes_from [] sb) g4, []))
    = Ok (gA, map (fun e => rename_var_list σ (ret e)) exits)
  /\ NoDup (map fst (cl_blocks gA))
  /\ (forall x, lookup x (cl_blocks gA) = if String.eqb x (second_id id) then Some (set_comes_from exits (second_half id pos b))
        else if String.eqb x (first_id id) then Some (before_call start)
        else if String.eqb x id then None
        else match lookup x (cl_blocks F) with Some bf => Some (linked start x bf) | None => option_map (edit id) (lookup x (cl_blocks g)) end)
  /\ cl_start gA = (if opt_eqb (Some id) (cl_start g) then Some (first_id id) else cl_start g)
  /\ (forall x, In x (cl_terminal gA) <-> has_type ["FunctionReturn"; "mainExit"; "terminal"] gA x)
  /\ (forall x, In x (cl_return gA) <-> has_type ["FunctionReturn"] gA x).
Proof.
  intros [CG CF SP IC NA AR NF PD AP NE RE NO RS] ST. destruct SP as [L NL ND F1 F2].
  unfold get_block at 1. rewrite L. cbn [of_option bind]. rewrite IC. cbn [of_option bind]. rewrite NA. cbn [py_assert bind].
  unfold rename_input_args, function_input2call_input. rewrite AR, Nat.eqb_refl. cbn [py_assert bind]. rewrite update_zip_nil by exact NF.
  rewrite (all_changed_true _ _ PD). cbn [py_assert bind f_blocks]. fold F. change (combine (f_args f) (rev (li_ins call))) with σ.
  assert (CF1 : consistent (rename_blocks σ F)) by (apply rename_consistent, CF).
  destruct (include_consistent (rename_blocks σ F) g CF1 CG) as (g1 & E1 & C1 & L1 & S1).
  { intros k I. apply lookup_In_rename in I. apply AP in I. tauto. }
  unfold include_blocks. cbn [f_blocks]. rewrite E1. cbn [bind]. change (cl_start (rename_blocks σ F)) with (cl_start F). rewrite ST. cbn [of_option bind].
  assert (NF1 : forall x, ~ In x (map fst (cl_blocks F)) -> lookup x (cl_blocks g1) = lookup x (cl_blocks g)).
  { intros x I. rewrite L1, lookup_rename. destruct (lookup x (cl_blocks F)) eqn:Q; [|reflexivity]. apply lookup_In_key in Q. tauto. }
  assert (IDF : ~ In id (map fst (cl_blocks F))). { intros I. apply AP in I as (I & _). apply I. eapply lookup_In_key; eauto. }
  assert (AF : ~ In (first_id id) (map fst (cl_blocks F))) by (intros I; apply AP in I; tauto).
  assert (AS : ~ In (second_id id) (map fst (cl_blocks F))) by (intros I; apply AP in I; tauto).
  assert (SP1 : splittable g1 id b).
  { constructor; auto; [rewrite NF1; auto|intros I; apply key_lookup in I as (v & I); rewrite NF1 in I by auto; apply lookup_In_key in I; tauto|].
    intros I; apply key_lookup in I as (v & I); rewrite NF1 in I by auto; apply lookup_In_key in I; tauto. }
  destruct (split_block_lookup g1 id pos b C1 SP1) as (g2 & E2 & K2 & L2 & S2 & _). rewrite E2. cbn [bind].
  assert (LF2 : lookup (first_id id) (cl_blocks g2) = Some (first_half id pos b)).
  { rewrite L2. destruct (String.eqb_spec (first_id id) (second_id id)) as [Q|_]; [destruct (halves_ne id Q)|]. rewrite String.eqb_refl. reflexivity. }
  assert (EF : cb_instrs (first_half id pos b) = firstn pos (cb_instrs b) ++ [call]) by (apply firstn_snoc, IC).
  rewrite (pop_instr_ok _ _ _ _ _ LF2 EF). cbn [bind snd].
  set (g2' := put_block (first_id id) (drop_last (first_half id pos b)) g2).
  unfold modify_successors. unfold get_block at 1. unfold g2' at 1. rewrite put_block_lookup, String.eqb_refl. cbn [of_option bind].
  change (opt_eqb (cb_jump_to (drop_last (first_half id pos b))) (Some (second_id id))) with false. cbn iota.
  change (opt_eqb (cb_falls_to (drop_last (first_half id pos b))) (Some (second_id id))) with (String.eqb (second_id id) (second_id id)). rewrite String.eqb_refl. cbn [py_assert bind].
  set (bc := set_falls_to (Some start) (drop_last (first_half id pos b))).
  assert (BC : bc = before_call start). { unfold bc, before_call, drop_last. rewrite EF, removelast_snoc. reflexivity. }
  rewrite BC. set (g3 := put_block (first_id id) (before_call start) g2').
  assert (L3 : forall x, lookup x (cl_blocks g3) = if String.eqb (first_id id) x then Some (before_call start) else lookup x (cl_blocks g2)).
  { intros x. unfold g3, g2'. rewrite !put_block_lookup. destruct (first_id id =? x)%string; reflexivity. }
  assert (SI : In start (map fst (cl_blocks F))). { destruct (c_start F CF) as (s & Hs & I). congruence. }
  destruct (key_lookup start _ SI) as (bs & LS).
  assert (ED : forall x bf, lookup x (cl_blocks F) = Some bf -> edit id (no_return (rename_block σ bf)) = no_return (rename_block σ bf)).
  { intros x bf LX. assert (LX1 : lookup x (cl_blocks g1) = Some (no_return (rename_block σ bf))) by (rewrite L1, lookup_rename, LX; reflexivity).
    destruct (no_return_succ (rename_block σ bf)) as (Q1 & Q2 & Q3 & _). 
    assert (NS : ~ In id (successors (rename_block σ bf))).
    { intros I. change (In id (successors bf)) in I. assert (P : 0 < departures F x id) by (unfold departures; rewrite LX; apply count_In; exact I). rewrite <- (c_links F CF) in P. rewrite absent_arrivals in P by exact IDF. lia. }
    assert (NCF : ~ In id (cb_comes_from (rename_block σ bf))).
    { intros I. change (In id (cb_comes_from bf)) in I. assert (P : 0 < arrivals F id x) by (unfold arrivals; rewrite LX; apply count_In; exact I). rewrite (c_links F CF) in P. rewrite absent_departures in P by exact IDF. lia. }
    unfold edit. rewrite relink_noop by (rewrite Q1; exact NS). apply relist_noop; [rewrite Q2; exact NCF|]. exact (c_entries g1 C1 x _ LX1). }
  assert (L2F : forall x bf, lookup x (cl_blocks F) = Some bf -> lookup x (cl_blocks g2) = Some (no_return (rename_block σ bf))).
  { intros x bf LX. assert (IX := lookup_In_key _ _ _ LX). rewrite L2. destruct (String.eqb_spec x (second_id id)); [subst; tauto|]. destruct (String.eqb_spec x (first_id id)); [subst; tauto|].
    destruct (String.eqb_spec x id); [subst; tauto|]. rewrite L1, lookup_rename, LX. simpl. f_equal. apply (ED x bf LX). }
  unfold modify_comes_from. unfold get_block at 1. rewrite L3. destruct (String.eqb_spec (first_id id) start) as [Q|NFS]; [rewrite Q in AF; tauto|].
  rewrite (L2F start bs LS). cbn [of_option bind]. set (bs1 := no_return (rename_block σ bs)).
  set (g4 := put_block start (set_comes_from (cb_comes_from bs1 ++ [first_id id]) bs1) g3).
  assert (L4 : forall x, lookup x (cl_blocks g4) = if String.eqb start x then Some (set_comes_from (cb_comes_from bs1 ++ [first_id id]) bs1) else lookup x (cl_blocks g3)) by (intros; apply put_block_lookup).
  assert (LS4 : lookup (second_id id) (cl_blocks g4) = Some (second_half id pos b)).
  { rewrite L4. destruct (String.eqb_spec start (second_id id)) as [Q|_]; [rewrite <- Q in AS; tauto|]. rewrite L3. destruct (String.eqb_spec (first_id id) (second_id id)) as [Q|_]; [destruct (halves_ne id Q)|].
    rewrite L2, String.eqb_refl. reflexivity. }
  unfold get_block at 1. rewrite LS4. cbn [of_option bind].
  set (g5 := put_block (second_id id) (set_comes_from [] (second_half id pos b)) g4).
  assert (L5 : forall x, lookup x (cl_blocks g5) = if String.eqb (second_id id) x then Some (set_comes_from [] (second_half id pos b)) else lookup x (cl_blocks g4)) by (intros; apply put_block_lookup).
  assert (L5F : forall x bf, lookup x (cl_blocks F) = Some bf -> lookup x (cl_blocks g5) = Some (if String.eqb x start then set_comes_from (cb_comes_from (no_return (rename_block σ bf)) ++ [first_id id]) (no_return (rename_block σ bf)) else no_return (rename_block σ bf))).
  { intros x bf LX. assert (IX := lookup_In_key _ _ _ LX). rewrite L5. destruct (String.eqb_spec (second_id id) x) as [Q|_]; [rewrite Q in AS; tauto|]. rewrite L4, String.eqb_sym. destruct (String.eqb_spec x start) as [->|_]; [rewrite LS in LX; injection LX as <-; reflexivity|].
    rewrite L3. destruct (String.eqb_spec (first_id id) x) as [Q|_]; [rewrite Q in AF; tauto|]. apply (L2F x bf LX). }
  change (cl_return (rename_blocks σ F)) with exits.
  assert (EX : forall e, In e exits -> In e (map fst (cl_blocks F))). { intros e I. apply RE in I as (be & pre & I & _). eapply lookup_In_key; eauto. }
  destruct (connect_exits (second_id id) exits g5 [] (set_comes_from [] (second_half id pos b)) (fun e => rename_var_list σ (ret e))) as (gA & E & SH & LA).
  - exact NE.
  - intros I. apply EX in I. tauto.
  - rewrite L5, String.eqb_refl. reflexivity.
  - intros e _ [].
  - intros e I. destruct (RE e I) as (be & pre & LE & IR & _). rewrite (L5F e be LE). eexists. exists (map (rename_instr σ) pre). split; [reflexivity|]. eapply is_return_rename; [|exact IR].
    destruct (no_return_succ (rename_block σ be)) as (_ & _ & _ & Q & _). destruct (e =? start)%string; simpl; exact Q.
  - exists gA. split; [exact E|]. destruct SH as (SK & SS).
    assert (K5 : map fst (cl_blocks g5) = map fst (cl_blocks g2)).
    { unfold g5, put_block; cbn [cl_blocks]. rewrite dict_set_same_keys by (eapply lookup_In_key; exact LS4). unfold g4, put_block; cbn [cl_blocks]. rewrite dict_set_same_keys.
      - unfold g3, g2', put_block; cbn [cl_blocks]. rewrite dict_set_same_keys; [apply dict_set_same_keys|rewrite dict_set_same_keys]; eapply lookup_In_key; exact LF2.
      - apply (lookup_In_key _ bs1). rewrite L3. destruct (String.eqb_spec (first_id id) start); [tauto|]. apply (L2F start bs LS). }
    assert (TY : forall types x, has_type types gA x <-> has_type types g2 x).
    { intros types x. assert (Q : option_map cb_type (lookup x (cl_blocks gA)) = option_map cb_type (lookup x (cl_blocks g2))).
      { rewrite LA. destruct (String.eqb_spec x (second_id id)) as [->|N2]; [rewrite L2, String.eqb_refl; reflexivity|].
        assert (Q5 : option_map cb_type (lookup x (cl_blocks g5)) = option_map cb_type (lookup x (cl_blocks g2))).
        { rewrite L5. destruct (String.eqb_spec (second_id id) x); [congruence|]. rewrite L4. destruct (String.eqb_spec start x) as [<-|]; [rewrite (L2F start bs LS); reflexivity|].
          rewrite L3. destruct (String.eqb_spec (first_id id) x) as [<-|]; [rewrite LF2; reflexivity|reflexivity]. }
        rewrite <- Q5. destruct (mem x exits), (lookup x (cl_blocks g5)); reflexivity. }
      unfold has_type. destruct (lookup x (cl_blocks gA)) as [b1|], (lookup x (cl_blocks g2)) as [b2|]; simpl in Q; try discriminate; [injection Q as Q|].
      - split; intros (b0 & H & I); injection H as <-; eexists; (split; [reflexivity|]); congruence.
      - split; intros (b0 & H & _); discriminate. }
    assert (C2 := split_consistent g1 id pos b g2 C1 SP1 E2). destruct SS as (SS & ST' & SR).
    split; [rewrite SK, K5; exact K2|]. split; [|split; [|split; intros x; rewrite TY; [rewrite ST'|rewrite SR]; apply C2]].
    + intros x. rewrite LA. destruct (String.eqb_spec x (second_id id)) as [->|N2]; [reflexivity|]. destruct (String.eqb_spec x (first_id id)) as [->|N1].
      * assert (M : mem (first_id id) exits = false) by (apply mem_false; intros I; apply EX in I; tauto). rewrite M, L5. destruct (String.eqb_spec (second_id id) (first_id id)) as [Q|_]; [congruence|].
        rewrite L4. destruct (String.eqb_spec start (first_id id)); [congruence|]. rewrite L3, String.eqb_refl. reflexivity.
      * destruct (lookup x (cl_blocks F)) as [bf|] eqn:LX.
        -- destruct (String.eqb_spec x id) as [->|_]; [apply lookup_In_key in LX; tauto|]. rewrite (L5F x bf LX). unfold linked. destruct (mem x exits); reflexivity.
        -- assert (M : mem x exits = false). { apply mem_false. intros I. apply EX, key_lookup in I as (v & I). congruence. } rewrite M, L5. destruct (String.eqb_spec (second_id id) x); [congruence|].
           rewrite L4. destruct (String.eqb_spec start x); [congruence|]. rewrite L3. destruct (String.eqb_spec (first_id id) x); [congruence|]. rewrite L2.
           destruct (String.eqb_spec x (second_id id)); [congruence|]. destruct (String.eqb_spec x (first_id id)); [congruence|]. destruct (String.eqb_spec x id); [reflexivity|].
           rewrite L1, lookup_rename, LX. reflexivity.
    + rewrite SS. unfold g5, g4, g3, g2', put_block. cbn [cl_start]. rewrite S2, S1. reflexivity.
Qed.

Lemma departures_rename_block d b0 : successors (rename_block d b0) = successors b0. Proof. reflexivity. Qed.

Lemma linked_succ start x bf : successors (linked start x bf) = if mem x exits then opt_list (Some (second_id id)) ++ opt_list (cb_falls_to bf) else successors bf.
Proof. unfold linked, successors. destruct (no_return_succ (rename_block σ bf)) as (_ & _ & _ & _ & _ & E1 & E2). destruct (mem x exits), (x =? start)%string; cbn [cb_jump_to cb_falls_to set_jump_to set_comes_from]; rewrite ?E1, ?E2; reflexivity. Qed.
Lemma linked_from start x bf : cb_comes_from (linked start x bf) = if String.eqb x start then cb_comes_from bf ++ [first_id id] else cb_comes_from bf.
Proof. unfold linked. destruct (no_return_succ (rename_block σ bf)) as (_ & E1 & _). destruct (mem x exits), (x =? start)%string; simpl; rewrite ?E1; reflexivity. Qed.
Lemma linked_entries start x bf : cb_entries (linked start x bf) = cb_entries bf.
Proof. unfold linked. destruct (no_return_succ (rename_block σ bf)) as (_ & _ & E1 & _). destruct (mem x exits), (x =? start)%string; simpl; exact E1. Qed.

Definition final (start x : string) (bf : cblock) : cblock :=
  let b1 := rename_block ρ (linked start x bf) in if mem x exits then drop_last b1 else b1.

Theorem inline_blocks start : inlinable g id b pos call f ret -> cl_start F = Some start ->
  exists g' phis, inline_function pos id g f = Ok g' /\ NoDup (map fst (cl_blocks g'))
  /\ (if Nat.ltb 1 (length exits)
      then Forall2 (phi_for (map (fun e => rename_var_list σ (ret e)) exits)) (combine (seq 0 (length (li_outs call))) (li_outs call)) (rev phis)
      else phis = [])
  /\ (forall x, lookup x (cl_blocks g') = if String.eqb x (second_id id) then Some (rename_block ρ (after_call phis))
        else if String.eqb x (first_id id) then Some (rename_block ρ (before_call start))
        else if String.eqb x id then None
        else match lookup x (cl_blocks F) with Some bf => Some (final start x bf)
             | None => option_map (fun b0 => rename_block ρ (edit id b0)) (lookup x (cl_blocks g)) end)
  /\ cl_start g' = (if opt_eqb (Some id) (cl_start g) then Some (first_id id) else cl_start g)
  /\ (forall x, In x (cl_terminal g') <-> has_type ["FunctionReturn"; "mainExit"; "terminal"] g' x)
  /\ (forall x, In x (cl_return g') <-> has_type ["FunctionReturn"] g' x).
Proof.
  intros I ST. destruct (inline_first_part start I ST) as (gA & E & K & L & S & TT & TR).
  assert (EX : forall e, In e exits -> exists be pre, lookup e (cl_blocks F) = Some be /\ is_return be pre (ret e) /\ length (ret e) = length (li_outs call)).
  { intros e He. destruct (in_returns _ _ _ _ _ _ _ I e He) as (be & pre & Q1 & Q2 & _ & _ & Q3). eauto. }
  assert (AP := in_apart _ _ _ _ _ _ _ I). fold F in AP. assert (NDX := in_exits _ _ _ _ _ _ _ I). fold F in NDX. fold exits in NDX.
  assert (LG := sp_lookup _ _ _ (in_split _ _ _ _ _ _ _ I)).
  assert (FK : forall x bf, lookup x (cl_blocks F) = Some bf -> x <> second_id id /\ x <> first_id id /\ x <> id).
  { intros x bf Q. apply lookup_In_key in Q. apply AP in Q as (Q1 & Q2 & Q3). split; [auto|]. split; [auto|]. intros ->. apply Q1. eapply lookup_In_key; eauto. }
  assert (LAF : forall x bf, lookup x (cl_blocks F) = Some bf -> lookup x (cl_blocks gA) = Some (linked start x bf)).
  { intros x bf Q. destruct (FK x bf Q) as (N2 & N1 & N0). rewrite L. destruct (String.eqb_spec x (second_id id)); [tauto|]. destruct (String.eqb_spec x (first_id id)); [tauto|]. destruct (String.eqb_spec x id); [tauto|]. rewrite Q. reflexivity. }
  (* the results *)
  assert (RES : exists g5 phis,
    (match map (fun e => rename_var_list σ (ret e)) exits with [] => Ok gA | [_] => rename_output_args call exits gA | returned => insert_phis (second_id id) call returned exits gA end) = Ok g5
    /\ (if Nat.ltb 1 (length exits) then Forall2 (phi_for (map (fun e => rename_var_list σ (ret e)) exits)) (combine (seq 0 (length (li_outs call))) (li_outs call)) (rev phis) else phis = [])
    /\ map fst (cl_blocks g5) = map fst (cl_blocks gA) /\ cl_start g5 = cl_start gA /\ cl_terminal g5 = cl_terminal gA /\ cl_return g5 = cl_return gA
    /\ (forall x, lookup x (cl_blocks g5) = if String.eqb x (second_id id) then Some (rename_block ρ (after_call phis)) else option_map (rename_block ρ) (lookup x (cl_blocks gA)))).
  { assert (L2 : lookup (second_id id) (cl_blocks gA) = Some (set_comes_from exits (second_half id pos b))) by (rewrite L, String.eqb_refl; reflexivity).
    destruct exits as [|e1 [|e2 es]] eqn:EE.
    - exists gA, []. split; [reflexivity|]. split; [reflexivity|]. repeat (split; [reflexivity|]). intros x. unfold ρ, results_to_returned. fold F. fold exits. rewrite EE, rename_block_nil.
      destruct (String.eqb_spec x (second_id id)) as [->|]; [rewrite L2; unfold after_call; rewrite EE; reflexivity|]. destruct (lookup x (cl_blocks gA)); simpl; rewrite ?rename_block_nil; reflexivity.
    - destruct (EX e1 (or_introl eq_refl)) as (be & pre & LE & IR & LEN). cbn [map].
      assert (IR' := is_return_rename σ be pre (ret e1) _ (linked_return start e1 be) IR). destruct IR' as (i & EI & OP & II).
      unfold rename_output_args, call_output2function_output. cbn [for_each]. unfold get_block. rewrite (LAF e1 be LE). cbn [of_option bind]. rewrite EI, rev_app_distr. cbn [rev app]. rewrite OP, II.
      rewrite String.eqb_refl. cbn [py_assert bind]. unfold rename_var_list at 1. rewrite map_length, LEN, Nat.eqb_refl. cbn [py_assert bind].
      rewrite update_zip_nil by apply (in_outs _ _ _ _ _ _ _ I). rewrite all_changed_true by (apply (in_results _ _ _ _ _ _ _ I); exact EE). cbn [py_assert bind].
      assert (RHO : ρ = combine (li_outs call) (rename_var_list σ (ret e1))) by (unfold ρ, results_to_returned; fold F; fold exits; rewrite EE; reflexivity). rewrite <- RHO.
      eexists. exists []. split; [reflexivity|]. split; [reflexivity|]. split; [apply keys_rename|]. repeat (split; [reflexivity|]). intros x. rewrite lookup_rename.
      destruct (String.eqb_spec x (second_id id)) as [->|]; [rewrite L2; unfold after_call; rewrite EE; reflexivity|]. reflexivity.
    - cbn [map]. set (returned := rename_var_list σ (ret e1) :: rename_var_list σ (ret e2) :: map (fun e => rename_var_list σ (ret e)) es).
      unfold insert_phis, get_block. rewrite L2. cbn [of_option bind].
      destruct (insert_phis_ok returned (combine (seq 0 (length (li_outs call))) (li_outs call)) (cb_instrs (set_comes_from (e1 :: e2 :: es) (second_half id pos b)))) as (phis & EP & FP).
      { intros [n o] rv J1 J2. apply in_combine_l, in_seq in J1. simpl. change returned with (map (fun e => rename_var_list σ (ret e)) (e1 :: e2 :: es)) in J2. apply in_map_iff in J2 as (e & <- & J2). 
        destruct (EX e J2) as (_ & _ & _ & _ & LEN). unfold rename_var_list. rewrite map_length, LEN. lia. }
      rewrite EP. cbn [bind]. eexists. exists (rev phis). split; [reflexivity|]. split; [simpl Nat.ltb; rewrite rev_involutive; exact FP|]. split; [apply dict_set_same_keys; eapply lookup_In_key; exact L2|]. repeat (split; [reflexivity|]).
      intros x. rewrite put_block_lookup, String.eqb_sym. unfold ρ, results_to_returned. fold F. fold exits. rewrite EE. rewrite !rename_block_nil. destruct (String.eqb_spec x (second_id id)) as [->|].
      + f_equal. unfold after_call. rewrite EE. reflexivity.
      + destruct (lookup x (cl_blocks gA)); simpl; rewrite ?rename_block_nil; reflexivity. }
  destruct RES as (g5 & phis & E5 & PH & K5 & S5 & T5 & R5 & L5).
  assert (L5F : forall x bf, lookup x (cl_blocks F) = Some bf -> lookup x (cl_blocks g5) = Some (rename_block ρ (linked start x bf))).
  { intros x bf Q. destruct (FK x bf Q) as (N2 & N1 & N0). rewrite L5, (LAF x bf Q). destruct (String.eqb_spec x (second_id id)); [tauto|]. reflexivity. }
  destruct (remove_returns exits g5 NDX) as (g6 & E6 & SH & L6).
  { intros e He. destruct (EX e He) as (be & pre & LE & IR & _). exists (rename_block ρ (linked start e be)). eexists. eexists. split; [apply (L5F e be LE)|].
    eapply (is_return_rename ρ); [reflexivity|]. eapply (is_return_rename σ); [apply linked_return|exact IR]. }
  destruct SH as (SK & SS & ST6 & SR6).
  exists g6, phis. split; [|split; [rewrite SK, K5; exact K|split; [exact PH|]]].
  - clear L6 SK SS ST6 SR6. revert E. unfold inline_function. intros E.
    repeat match type of E with
    | bind ?r ?k = _ => let v := fresh "v" in destruct r as [v|] eqn:?; cbn [bind] in E |- *; [|discriminate E]
    end.
    match goal with H : rename_input_args f _ = Ok ?f1 |- _ => assert (RF : cl_return (f_blocks f1) = exits) end.
    { match goal with H : rename_input_args f _ = Ok _ |- _ => unfold rename_input_args in H; destruct (function_input2call_input f _) as [rl|]; cbn [bind] in H; [|discriminate]; destruct (py_assert (all_changed rl)); cbn [bind] in H; [|discriminate]; injection H as <-; reflexivity end. }
    rewrite E. cbn [bind fst snd]. 
    match goal with H : get_block id g = Ok ?b0 |- _ => assert (b0 = b) by (unfold get_block in H; rewrite LG in H; simpl in H; congruence); subst b0 end.
    match goal with H : of_option (nth_error (cb_instrs b) pos) = Ok ?c |- _ => assert (c = call) by (rewrite (in_call _ _ _ _ _ _ _ I) in H; simpl in H; congruence); subst c end.
    rewrite RF, E5. cbn [bind]. exact E6.
  - assert (LL : forall x, lookup x (cl_blocks g6) = if String.eqb x (second_id id) then Some (rename_block ρ (after_call phis))
        else if String.eqb x (first_id id) then Some (rename_block ρ (before_call start))
        else if String.eqb x id then None
        else match lookup x (cl_blocks F) with Some bf => Some (final start x bf)
             | None => option_map (fun b0 => rename_block ρ (edit id b0)) (lookup x (cl_blocks g)) end).
    { intros x. rewrite L6. destruct (lookup x (cl_blocks F)) as [bf|] eqn:LX.
      - destruct (FK x bf LX) as (N2 & N1 & N0). destruct (String.eqb_spec x (second_id id)); [tauto|]. destruct (String.eqb_spec x (first_id id)); [tauto|]. destruct (String.eqb_spec x id); [tauto|].
        rewrite (L5F x bf LX). unfold final. destruct (mem x exits); reflexivity.
      - assert (M : mem x exits = false). { apply mem_false. intros J. apply EX in J as (be & _ & J & _). congruence. } rewrite M, L5, L, LX.
        destruct (x =? second_id id)%string; [reflexivity|]. destruct (x =? first_id id)%string; [reflexivity|]. destruct (x =? id)%string; [reflexivity|]. destruct (lookup x (cl_blocks g)); reflexivity. }
    split; [exact LL|]. split; [congruence|].
    assert (TY : forall types x, has_type types g6 x <-> has_type types gA x).
    { intros types x. assert (Q : option_map cb_type (lookup x (cl_blocks g6)) = option_map cb_type (lookup x (cl_blocks gA))).
      { rewrite L6, L5. destruct (String.eqb_spec x (second_id id)) as [->|N2].
        - assert (M : mem (second_id id) exits = false). { apply mem_false. intros J. apply EX in J as (be & _ & J & _). apply FK in J. tauto. } rewrite M, L, String.eqb_refl. reflexivity.
        - destruct (mem x exits), (lookup x (cl_blocks gA)); reflexivity. }
      unfold has_type. destruct (lookup x (cl_blocks g6)) as [b1|], (lookup x (cl_blocks gA)) as [b2|]; simpl in Q; try discriminate; [injection Q as Q|].
      - split; intros (b0 & H & J); injection H as <-; eexists; (split; [reflexivity|]); congruence.
      - split; intros (b0 & H & _); discriminate. }
    split; intros x; rewrite TY; [rewrite ST6, T5; apply TT|rewrite SR6, R5; apply TR].
Qed.
End Blocks.
