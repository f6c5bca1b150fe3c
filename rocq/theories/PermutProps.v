(** Property C30: the operations emitted by the final phase of the synthesizer
    turn the current stack into the target stack, with SWAPs in reach only. *)
From Verif Require Import Base Lexical LexicalProofs SymExecModel AsmModel MachineSpec PermutModel.
Open Scope string_scope. Open Scope list_scope. Open Scope Z_scope.

(** The assembly item of an id without operand. *)
Definition item (id : string) : asm := {| a_name := id; a_value := None |}.
(** Names are written inside the parentheses of VGET and VSET and read back
    from there, up to the end of the line. *)
Definition one_line (x : string) : Prop := ~ In "010"%char (list_ascii_of_string x).

(* ------------------------------------------------------------------ *)
(** What one emitted operation does to the symbolic stack and to the contents
    of the registers, counted as often as they are needed. *)
Inductive act (R : Z) : list string * list string -> string -> list string * list string -> Prop :=
| a_pop x c r : act R (x :: c, r) "POP" (c, r)
| a_again x c r : In x r -> act R (x :: c, r) "POP" (c, r ++ [x])
| a_set x c r : act R (x :: c, r) (vset_id x) (c, r ++ [x])
| a_get x c r r' : remove_first x r = Some r' -> act R (c, r) (vget_id x) (x :: c, r')
| a_swap x y mid post r i : 1 <= i <= R -> Z.of_nat (length mid) = i - 1 ->
    act R (x :: mid ++ y :: post, r) (swap_name i) (y :: mid ++ x :: post, r).
Inductive acts (R : Z) : list string * list string -> list string -> list string * list string -> Prop :=
| as_nil s : acts R s [] s
| as_cons s a s' l s'' : act R s a s' -> acts R s' l s'' -> acts R s (a :: l) s''.

Lemma acts_app R s l s' l' s'' : acts R s l s' -> acts R s' l' s'' -> acts R s (l ++ l') s''.
Proof. induction 1; cbn; [auto|]. intros H'. econstructor; eauto. Qed.
Lemma acts_one R s a s' : act R s a s' -> acts R s [a] s'.
Proof. intros. econstructor; [eassumption|constructor]. Qed.

Lemma remove_first_in x r r' : remove_first x r = Some r' -> In x r /\ forall y, In y r' -> In y r.
Proof.
  revert r'. induction r as [|y r IH]; cbn; intros r' E; [discriminate|].
  destruct (String.eqb_spec y x) as [-> | N]; [injection E as <-; auto|].
  destruct (remove_first x r) as [r0|] eqn:E0; [|discriminate]. injection E as <-.
  destruct (IH _ eq_refl). split; [auto|]. cbn. intros z [Hz|Hz]; auto.
Qed.

(* ------------------------------------------------------------------ *)
(** ** From the operations to the machine *)
Lemma upper_str_Z z : 0 <= z -> upper (str_Z z) = str_Z z.
Proof.
  intros Hz. unfold str_Z. destruct z as [|p|p]; [reflexivity| |lia].
  cbn [Z.to_int DecimalString.NilZero.string_of_int].
  destruct (Pos.to_uint p); [reflexivity|..]; apply upper_str_uint.
Qed.
Lemma py_int_str z : 0 <= z -> py_int (str_Z z) = Some z.
Proof. intros H. rewrite <- upper_str_Z by auto. apply py_int_str_Z; auto. Qed.
Lemma swap_name_inj i j : 0 <= i -> 0 <= j -> swap_name i = swap_name j -> i = j.
Proof.
  intros Hi Hj E. unfold swap_name in E. apply (f_equal (sdrop 4)) in E. cbn in E.
  pose proof (py_int_str i Hi). pose proof (py_int_str j Hj). congruence.
Qed.

Section Run.
Context {V Loc LV : Type} (sem : @semantics V Loc LV).
Notation machine := (@mstate V Loc LV).

Lemma kind_pop : kind_of sem (item "POP") = Some KPop.
Proof. reflexivity. Qed.
Lemma kind_swap i : 0 <= i -> kind_of sem (item (swap_name i)) = Some (KSwap i).
Proof.
  intros H. unfold kind_of, item. cbn [a_name]. change (String.eqb (swap_name i) "POP") with false.
  replace (startswith "SWAP" (swap_name i)) with true by (symmetry; apply startswith_app).
  cbv match. change (sdrop 4 (swap_name i)) with (str_Z i). rewrite py_int_str by auto. reflexivity.
Qed.
Lemma kind_set x : one_line x -> kind_of sem (item (vset_id x)) = Some (KSet x).
Proof.
  intros H. unfold kind_of, item. cbn [a_name].
  change (String.eqb (vset_id x) "POP") with false. change (startswith "SWAP" (vset_id x)) with false. change (startswith "DUP" (vset_id x)) with false.
  cbv match. change (vget_arg (vset_id x)) with (@None string).
  unfold vset_arg, vset_id. pose proof (paren_arg_app "VSET(" x H) as E.
  change ("VSET(" ++ (x ++ ")"))%string with ("VSET(" ++ x ++ ")")%string in E. rewrite E. reflexivity.
Qed.
Lemma kind_get x : one_line x -> kind_of sem (item (vget_id x)) = Some (KGet x).
Proof.
  intros H. unfold kind_of, item. cbn [a_name].
  change (String.eqb (vget_id x) "POP") with false. change (startswith "SWAP" (vget_id x)) with false. change (startswith "DUP" (vget_id x)) with false.
  cbv match. unfold vget_arg, vget_id. pose proof (paren_arg_app "VGET(" x H) as E.
  change ("VGET(" ++ (x ++ ")"))%string with ("VGET(" ++ x ++ ")")%string in E. rewrite E. reflexivity.
Qed.

Variable (e : string -> V) (below : list V).

(** The machine holds the values of the symbolic stack, and the registers hold
    the values of the elements to be read from them. *)
Definition holds (s : list string * list string) (w : @world Loc LV) (m : machine) : Prop :=
  m_stack m = map e (fst s) ++ below /\ m_world m = w /\ (forall x, In x (snd s) -> m_regs m x = e x) /\
  (forall x, In x (fst s) \/ In x (snd s) -> one_line x).

Lemma nth_error_at {A} (l : list A) x l' : nth_error (l ++ x :: l') (length l) = Some x.
Proof. induction l; auto. Qed.
Lemma set_nth_at {A} (l : list A) x y l' : set_nth (length l) y (l ++ x :: l') = l ++ y :: l'.
Proof. induction l; cbn; auto. f_equal; auto. Qed.

Lemma act_runs R s a s' w m : R <= 16 -> act R s a s' -> holds s w m ->
  exists m', mstep sem (item a) m = Some m' /\ holds s' w m'.
Proof.
  intros HR Ha (Hs & Hw & Hr & Hn). unfold mstep.
  destruct Ha as [x c r|x c r Hx|x c r|x c r r' E|x y mid post r i Hi Hl]; cbn [fst snd] in *.
  - rewrite kind_pop, Hs. cbn. eexists. split; [reflexivity|]. repeat split; cbn; auto. intros z Hz; apply Hn; cbn; tauto.
  - rewrite kind_pop, Hs. cbn. eexists. split; [reflexivity|]. split; [reflexivity|]. split; [auto|]. cbn [snd fst m_regs]. split.
    + intros z Hz. apply in_app_iff in Hz as [Hz|[<-|[]]]; auto.
    + intros z Hz. apply Hn. rewrite in_app_iff in Hz. cbn in *. tauto.
  - rewrite kind_set by (apply Hn; cbn; auto). rewrite Hs. cbn. eexists. split; [reflexivity|]. split; [reflexivity|]. split; [auto|].
    cbn [snd fst m_regs]. split.
    + intros z Hz. unfold upd_reg. destruct (String.eqb_spec z x) as [-> | N]; [reflexivity|].
      apply in_app_iff in Hz as [Hz|[<-|[]]]; [auto|congruence].
    + intros z Hz. apply Hn. rewrite in_app_iff in Hz. cbn in *. tauto.
  - destruct (remove_first_in _ _ _ E) as [Hx Hi]. rewrite kind_get by (apply Hn; cbn; auto). eexists. split; [reflexivity|].
    split; [cbn; rewrite Hs, Hr by auto; reflexivity|]. split; [auto|]. cbn [snd fst m_regs]. split; [auto|].
    intros z [[<-|Hz]|Hz]; apply Hn; cbn; auto.
  - rewrite kind_swap by lia. replace (1 <=? i) with true by (symmetry; apply Z.leb_le; lia).
    replace (i <=? 16) with true by (symmetry; apply Z.leb_le; lia). cbn [andb]. rewrite Hs. cbn [map app].
    replace (Z.to_nat (i - 1)) with (length (map e mid)) by (rewrite map_length; lia).
    rewrite map_app. cbn [map]. rewrite <- app_assoc. cbn [app]. rewrite nth_error_at, set_nth_at. eexists. split; [reflexivity|].
    split; [cbn; rewrite map_app; cbn; rewrite <- app_assoc; reflexivity|]. split; [auto|]. split; [auto|].
    cbn [fst snd]. intros z Hz. apply Hn. cbn in *. rewrite in_app_iff in *. cbn in *. tauto.
Qed.
Lemma acts_run R s l s' w m : R <= 16 -> acts R s l s' -> holds s w m ->
  exists m', mrun sem (map item l) m = Some m' /\ holds s' w m'.
Proof.
  intros HR H. revert m. induction H as [s|s a s' l s'' Ha _ IH]; intros m Hm; [exists m; auto|].
  destruct (act_runs R s a s' w m HR Ha Hm) as (m1 & E1 & H1). cbn. rewrite E1. apply IH. exact H1.
Qed.
End Run.

(* ------------------------------------------------------------------ *)
(** ** From the loop to the operations *)
Lemma of_option_ok {A} (o : option A) a : of_option o = Ok a -> o = Some a.
Proof. destruct o; cbn; congruence. Qed.
Lemma bind_ok {A B} (r : result A) (f : A -> result B) b : bind r f = Ok b -> exists a, r = Ok a /\ f a = Ok b.
Proof. destruct r; cbn; [eauto|discriminate]. Qed.
Lemma nth_error_split' {A} (l : list A) n x : nth_error l n = Some x -> l = firstn n l ++ x :: skipn (S n) l.
Proof.
  revert l. induction n as [|n IH]; intros [|y l]; cbn; intros E; try discriminate; [congruence|]. f_equal. apply IH. exact E.
Qed.

Lemma swap_top_spec l i l' : swap_top l i = Ok l' -> 1 <= i ->
  exists x mid y post, l = x :: mid ++ y :: post /\ Z.of_nat (length mid) = i - 1 /\ l' = y :: mid ++ x :: post.
Proof.
  intros E Hi. unfold swap_top in E. apply bind_ok in E as (y & Ey & E). apply bind_ok in E as (x & Ex & E).
  apply of_option_ok in Ey, Ex. unfold znth in Ey, Ex. replace (i <? 0) with false in Ey by (symmetry; apply Z.ltb_ge; lia).
  cbn [Z.ltb Z.compare Z.to_nat] in Ex. destruct l as [|x0 l]; [discriminate|]. cbn in Ex. injection Ex as ->.
  destruct (Z.to_nat i) as [|n] eqn:En; [lia|]. cbn in Ey.
  assert (Hn : (n < length l)%nat) by (apply nth_error_Some; congruence).
  exists x, (firstn n l), y, (skipn (S n) l). split; [f_equal; apply nth_error_split'; exact Ey|].
  split; [rewrite firstn_length; lia|].
  assert (E' : l' = [y] ++ slice (x :: l) 1 i ++ [x] ++ slice (x :: l) (i + 1) (len (x :: l))) by congruence.
  rewrite E'. cbn [app]. f_equal.
  assert (B : forall z, 0 <= z <= len (x :: l) -> bound (x :: l) z = Z.to_nat z).
  { intros z Hz. unfold bound. replace (z <? 0) with false by (symmetry; apply Z.ltb_ge; lia). f_equal. lia. }
  assert (L : len (x :: l) = Z.of_nat (length l) + 1) by (unfold len; cbn [length]; lia).
  unfold slice. rewrite !B by lia. f_equal.
  - replace (Z.to_nat i - Z.to_nat 1)%nat with n by lia. reflexivity.
  - f_equal. replace (Z.to_nat (i + 1)) with (S (S n)) by lia. cbn [skipn]. rewrite L.
    apply firstn_all2. change (match l with [] => [] | _ :: l0 => skipn n l0 end) with (skipn (S n) l). rewrite skipn_length. lia.
Qed.

(** The ids emitted by a part of the loop, when their indices are not below 1. *)
Definition emits (R : Z) (st st' : pstate) : Prop :=
  exists l, p_ids st' = p_ids st ++ l /\
    ((forall z, In (swap_name z) l -> 1 <= z) -> acts R (p_c st, p_reg st) l (p_c st', p_reg st')).

Lemma emits_swap R i solved st st' : i <= R -> swap_move i solved st = Ok st' -> emits R st st'.
Proof.
  intros Hi E. unfold swap_move in E. apply bind_ok in E as (C' & EC & E). injection E as <-.
  exists [swap_name i]. split; [reflexivity|]. intros H. cbn [p_c p_reg]. apply acts_one.
  assert (H1 : 1 <= i) by (apply H; cbn; auto).
  destruct (swap_top_spec _ _ _ EC H1) as (x & mid & y & post & -> & Hl & ->). constructor; auto.
Qed.
Lemma mem_In x l : mem x l = true -> In x l.
Proof. unfold mem. intros H. apply existsb_exists in H as (y & Hy & E). apply String.eqb_eq in E as ->. exact Hy. Qed.
Lemma emits_save R top rest solved st : p_c st = top :: rest -> emits R st (save_top top rest solved st).
Proof.
  intros E. unfold save_top. eexists. split; [reflexivity|]. intros _. cbn [p_c p_reg]. apply acts_one. rewrite E.
  destruct (mem top (p_reg st)) eqn:M; constructor. apply mem_In; auto.
Qed.
Lemma emits_load R F st st' : load_register F st = Ok st' -> emits R st st'.
Proof.
  intros E. unfold load_register in E. apply bind_ok in E as (r & Er & E). apply bind_ok in E as (reg' & Ereg & E). injection E as <-.
  apply of_option_ok in Ereg. eexists. split; [reflexivity|]. intros _. cbn [p_c p_reg]. apply acts_one. constructor. exact Ereg.
Qed.
Lemma emits_trans R a b c : emits R a b -> emits R b c -> emits R a c.
Proof.
  intros (l & E & H) (l' & E' & H'). exists (l ++ l'). split; [rewrite E', E, app_assoc; reflexivity|].
  intros Hz. eapply acts_app; [apply H|apply H']; intros z Hi; apply Hz; rewrite in_app_iff; auto.
Qed.

Lemma search_down_le F d top solved i : (search_down F d top solved i <= i)%nat.
Proof. induction i as [|i IH]; cbn [search_down]; [lia|]. destruct (_ && _); lia. Qed.
Lemma garbage_le reach all F C j : garbage reach all F C = Some j -> (j <= reach)%nat.
Proof.
  unfold garbage. destruct (Nat.leb_spec (search_garbage all F 1 (firstn reach (tl C))) reach); [|discriminate].
  cbn [andb]. destruct (_ <? _)%nat; congruence.
Qed.
Lemma index_of_app w l l' : In w l -> exists s, index_of w (l ++ l') = Some s /\ (s < length l)%nat.
Proof.
  induction l as [|y l IH]; cbn; [intros []|]. intros [-> |H].
  - rewrite String.eqb_refl. exists 0%nat. split; [auto|lia].
  - destruct (String.eqb y w); [exists 0%nat; split; [auto|lia]|]. destruct (IH H) as (s & -> & Hs). exists (S s). split; [auto|lia].
Qed.

(** The element of the last wrong position found above it is within reach. *)
Lemma near_le reach w (top : string) rest lpos s : lpos <= -1 -> len (top :: rest) + lpos <= Z.of_nat reach -> top <> w ->
  mem w (slice (top :: rest) 0 lpos) = true -> index_of w rest = Some s -> Z.of_nat s + 1 <= Z.of_nat reach.
Proof.
  intros Hl Hr Hw Hm Es. apply mem_In in Hm. unfold slice in Hm. change (bound (top :: rest) 0) with 0%nat in Hm.
  rewrite Nat.sub_0_r in Hm. cbn [skipn] in Hm. unfold bound in Hm. replace (lpos <? 0) with true in Hm by (symmetry; apply Z.ltb_lt; lia).
  remember (Z.to_nat (lpos + len (top :: rest))) as n eqn:En. destruct n as [|n]; [destruct Hm|]. cbn [firstn] in Hm.
  destruct Hm as [E|Hm]; [congruence|]. destruct (index_of_app w (firstn n rest) (skipn n rest) Hm) as (s' & Es' & Hs').
  rewrite firstn_skipn in Es'. rewrite Es in Es'. injection Es' as <-. rewrite firstn_length in Hs'. lia.
Qed.

Lemma permut_step_emits reach F all top rest st st' : p_c st = top :: rest -> p_lpos st <= -1 ->
  permut_step reach F all top rest st = Ok st' -> emits (Z.of_nat reach) st st' /\ p_lpos st' = p_lpos st.
Proof.
  intros HC Hl E. assert (HL : p_lpos st' = p_lpos st).
  { unfold permut_step in E.
    repeat match type of E with
    | bind _ _ = Ok _ => apply bind_ok in E as (? & ? & E)
    | (if ?b then _ else _) = Ok _ => destruct b
    | (match ?x with Some _ => _ | None => _ end) = Ok _ => destruct x
    | (match ?x with [] => _ | _ => _ end) = Ok _ => destruct x eqn:?
    | Ok _ = Ok _ => injection E as <-
    | Raise _ = Ok _ => discriminate
    | context [swap_move] => unfold swap_move in *
    | context [load_register] => unfold load_register in *
    end; cbn [p_lpos save_top]; try reflexivity.
    all: repeat match goal with
    | H : context [swap_move] |- _ => unfold swap_move in H
    | H : context [load_register] |- _ => unfold load_register in H
    | H : bind _ _ = Ok _ |- _ => apply bind_ok in H as (? & ? & H)
    | H : Ok _ = Ok _ |- _ => injection H as <-
    end; reflexivity. }
  split; [|exact HL].
  unfold permut_step in E.
  destruct (zcount top F <? zcount top all).
  { injection E as <-. exists ["POP"]. split; [reflexivity|]. intros _. cbn. rewrite HC. apply acts_one. constructor. }
  apply bind_ok in E as (ip & _ & E). destruct ip.
  { injection E as <-. exists []. split; [cbn; rewrite app_nil_r; reflexivity|]. intros _. constructor. }
  apply bind_ok in E as (mp & _ & E). destruct mp.
  - set (d := len F - len (p_c st)) in *. set (i := search_down F d top (p_solved st) (Nat.min reach (length (p_c st) - 1))) in *.
    assert (Hi : (i <= reach)%nat) by (unfold i; pose proof (search_down_le F d top (p_solved st) (Nat.min reach (length (p_c st) - 1))); lia).
    destruct ((1 <=? i)%nat && _); [eapply emits_swap; [|exact E]; lia|].
    destruct (garbage reach all F (p_c st)) as [j|] eqn:Ej; [apply garbage_le in Ej; eapply emits_swap; [|exact E]; lia|].
    apply bind_ok in E as (near & En & E). destruct near.
    + destruct (Z.leb_spec (len (p_c st) + p_lpos st) (Z.of_nat reach)) as [Hr|]; [|discriminate].
      apply bind_ok in En as (w & Ew & En). apply bind_ok in E as (w' & Ew' & E). assert (w' = w) by congruence. subst w'.
      apply bind_ok in E as (u & Eu & E). apply bind_ok in E as (s & Es & E). apply of_option_ok in Es.
      eapply emits_swap; [|exact E]. rewrite HC in *. eapply near_le; eauto; [|congruence].
      intros ->. rewrite String.eqb_refl in Eu. discriminate.
    + destruct (Z.of_nat reach <=? _).
      * destruct (Nat.eqb_spec i 0); [injection E as <-; apply emits_save; auto|].
        set (k := if _ : bool then _ else i) in E.
        assert (Hk : (k <= i)%nat).
        { unfold k. destruct (1 <? _); cbn [andb]; [|lia]. destruct (Z.ltb_spec (len (p_c st) - len F - 1) (Z.of_nat i)); [|lia].
          pose proof (search_down_le F d top (p_solved st) (Z.to_nat (len (p_c st) - len F - 1))) as Hd.
          destruct (search_down F d top (p_solved st) (Z.to_nat (len (p_c st) - len F - 1))); [clearbody i; lia|clearbody i d; lia]. }
        apply bind_ok in E as (st1 & E1 & E). destruct (p_c st1) as [|top' rest'] eqn:E1c; [discriminate|]. injection E as <-.
        eapply emits_trans; [eapply emits_swap; [|exact E1]; lia|]. apply emits_save. exact E1c.
      * apply bind_ok in E as (st1 & E1 & E). apply bind_ok in E as (u & Eu & E). injection E as <-. eapply emits_load; eauto.
  - destruct (garbage reach all F (p_c st)) as [j|] eqn:Ej; [apply garbage_le in Ej; eapply emits_swap; [|exact E]; lia|].
    destruct (Z.leb_spec (Z.of_nat reach) (len (p_c st) + p_lpos st)) as [|Hr]; [injection E as <-; apply emits_save; auto|].
    apply bind_ok in E as (w & Ew & E). destruct (String.eqb w top).
    + apply bind_ok in E as (C' & _ & E). apply bind_ok in E as (sv & _ & E). eapply emits_swap; [|exact E]. lia.
    + match type of E with (if ?b then _ else _) = _ => destruct b eqn:Eb end.
      * apply andb_prop in Eb as [Eb _]. apply Nat.leb_le in Eb. apply bind_ok in E as (sv & _ & E). eapply emits_swap; [|exact E]. lia.
      * apply bind_ok in E as (u & Eu & E). eapply emits_load; eauto.
Qed.

Lemma get_all_spec R rs : forall reg C ids reg' C' ids', get_all rs reg C ids = Ok (reg', C', ids') ->
  exists l, ids' = ids ++ l /\ acts R (C, reg) l (C', reg').
Proof.
  induction rs as [|r rs IH]; cbn; intros reg C ids reg' C' ids' E.
  - injection E as -> -> ->. exists []. split; [rewrite app_nil_r; auto|constructor].
  - apply bind_ok in E as (reg1 & E1 & E). apply of_option_ok in E1. destruct (IH _ _ _ _ _ _ E) as (l & -> & H).
    exists (vget_id r :: l). split; [rewrite <- app_assoc; reflexivity|]. econstructor; [constructor; exact E1|exact H].
Qed.
Lemma list_eqb_true a b : list_eqb a b = true -> a = b.
Proof.
  revert b. induction a as [|x a IH]; intros [|y b]; cbn; intros E; try discriminate; [reflexivity|].
  apply andb_prop in E as [E1 E2]. apply String.eqb_eq in E1 as ->. f_equal. auto.
Qed.
Lemma advance_le C F n : forall l, l <= -1 -> advance n C F l <= -1.
Proof.
  induction n as [|n IH]; cbn [advance]; intros l Hl; destruct (_ && _); try lia. apply IH. lia.
Qed.

Lemma permut_loop_emits reach F fuel : forall st ids, p_lpos st <= -1 -> permut_loop fuel reach F st = Ok ids ->
  exists l, ids = p_ids st ++ l /\
    ((forall z, In (swap_name z) l -> 1 <= z) -> acts (Z.of_nat reach) (p_c st, p_reg st) l (F, [])).
Proof.
  induction fuel as [|f IH]; intros st ids Hl E; cbn [permut_loop] in E;
    (destruct (list_eqb (p_c st) F) eqn:EF;
      [apply list_eqb_true in EF; apply bind_ok in E as (u & Eu & E); injection E as <-; exists [];
       split; [rewrite app_nil_r; reflexivity|]; intros _; destruct (p_reg st); [|discriminate]; rewrite EF; constructor|]);
    apply bind_ok in E as (u0 & _ & E);
    (destruct (_ && list_eqb _ _);
      [apply bind_ok in E as ([[reg' C'] ids'] & Eg & E); apply bind_ok in E as (u1 & Eu1 & E); injection E as <-;
       destruct (get_all_spec (Z.of_nat reach) _ _ _ _ _ _ _ Eg) as (l & -> & H); exists l; split; [reflexivity|]; intros _;
       unfold py_assert in Eu1; destruct (list_eqb C' F) eqn:EC; [|discriminate]; apply list_eqb_true in EC; subst C';
       destruct reg'; [exact H|discriminate]|]).
  - destruct (p_c st); discriminate.
  - destruct (p_c st) as [|top rest] eqn:EC; [discriminate|]. apply bind_ok in E as (st' & Es & E).
    apply permut_step_emits in Es as [(l1 & E1 & H1) HL]; [|reflexivity|cbn; apply advance_le; auto].
    destruct (IH st' ids) as (l2 & E2 & H2); [rewrite HL; cbn; apply advance_le; auto|exact E|].
    cbn [p_ids p_c p_reg] in *. exists (l1 ++ l2). split; [rewrite E2, E1, app_assoc; reflexivity|].
    intros Hz. eapply acts_app; [apply H1|apply H2]; intros z Hi; apply Hz; rewrite in_app_iff; auto.
Qed.

Lemma act_bound R s a s' z : act R s a s' -> a = swap_name z -> 1 <= z -> z <= R.
Proof.
  intros H E Hz. destruct H; try (discriminate E).
  apply swap_name_inj in E; lia.
Qed.
Lemma acts_bound R s l s' z : acts R s l s' -> In (swap_name z) l -> 1 <= z -> z <= R.
Proof.
  induction 1 as [|s a s' l s'' Ha _ IH]; cbn; [tauto|]. intros [E|Hi] Hz; [eapply act_bound; eauto|auto].
Qed.

(** Full property: whenever the phase returns, the ids it emitted turn the
    stack [C] into the target [F], whatever the values [e] of the symbols, the
    stack [below] and the contents of the registers; and every SWAP is in
    reach.  Missing: that no SWAP with an index below 1 is emitted is a
    hypothesis (the synthesizer checks it afterwards, property C05), not a
    conclusion. *)
Theorem permutation_correct_partial {V Loc LV : Type} (sem : @semantics V Loc LV) fuel reach F C solved ids :
  compute_permut_and_clean fuel reach F C solved = Ok ids -> (reach <= 16)%nat ->
  (forall x, In x C -> one_line x) ->
  (forall z, In (swap_name z) ids -> 1 <= z) ->
  (forall z, In (swap_name z) ids -> z <= Z.of_nat reach) /\
  forall (e : string -> V) below w regs, exists regs',
    mrun sem (map item ids) {| m_stack := map e C ++ below; m_world := w; m_regs := regs |} =
    Some {| m_stack := map e F ++ below; m_world := w; m_regs := regs' |}.
Proof.
  intros E HR Hn Hz. apply permut_loop_emits in E as (l & -> & H); [|cbn; lia]. cbn [p_ids p_c p_reg app] in *.
  specialize (H Hz). split; [intros z Hi; eapply acts_bound; eauto|].
  intros e below w regs.
  destruct (acts_run sem e below (Z.of_nat reach) _ _ _ w {| m_stack := map e C ++ below; m_world := w; m_regs := regs |} ltac:(lia) H) as (m' & E' & Hs & Hw & _).
  { split; [reflexivity|]. split; [reflexivity|]. cbn. split; [tauto|]. intros x [Hx|[]]. auto. }
  exists (m_regs m'). rewrite E'. destruct m'. cbn in *. subst. reflexivity.
Qed.
Print Assumptions permutation_correct_partial.
