(** Which ids the search emits: operations of the block, POP, SWAP, DUP, VGET
    and VSET, and what is saved with VSET is fetched later with VGET. *)
From Verif Require Import Base Lexical SymExecModel.
From Verif Require UtilModel PermutProps.
From Verif Require Import PermutModel SearchModel SearchProofs SearchOrder.
Open Scope string_scope. Open Scope list_scope. Open Scope Z_scope.

Section Ids.
Context (I : list string).
(** What the search emits before the final permutation. *)
Definition usual (id : string) : Prop :=
  In id I \/ id = "POP" \/ (exists z, id = swap_name z) \/ (exists n, id = dup_id n) \/ (exists x, id = vget_id x).
Lemma u_id id : In id I -> usual id. Proof. left. auto. Qed.
Lemma u_pop : usual "POP". Proof. right. left. reflexivity. Qed.
Lemma u_swap z : usual (swap_name z). Proof. right. right. left. eauto. Qed.
Lemma u_dup n : usual (dup_id n). Proof. right. right. right. left. eauto. Qed.
Lemma u_vget x : usual (vget_id x). Proof. right. right. right. right. eauto. Qed.

Definition ids_of (g : gstate) : list string := map i_id (g_tbl g).
Definition grows (a b : outcome) : Prop :=
  let '(ops, s, g) := a in let '(ops', s', g') := b in
  ids_of g = I -> ids_of g' = I /\ exists l, ops' = ops ++ l /\ forall o, In o l -> usual (snd o).
Lemma grows_refl a : grows a a.
Proof. destruct a as [[ops s] g]. intros T. split; [exact T|]. exists []. rewrite app_nil_r. split; [reflexivity|intros ? []]. Qed.
Lemma grows_trans a b c : grows a b -> grows b c -> grows a c.
Proof.
  destruct a as [[o1 s1] g1], b as [[o2 s2] g2], c as [[o3 s3] g3]. intros A B T. destruct (A T) as (T2 & l & -> & R).
  destruct (B T2) as (T3 & l' & -> & R'). split; [exact T3|]. exists (l ++ l'). rewrite app_assoc. split; [reflexivity|].
  intros o Ho. apply in_app_iff in Ho as [Ho|Ho]; auto.
Qed.
Lemma grows_after ops s g ops' s' g' : grows ([], s, g) (ops', s', g') -> grows (ops, s, g) (ops ++ ops', s', g').
Proof. intros A T. destruct (A T) as (T' & l & -> & R). split; [exact T'|]. exists l. auto. Qed.
Lemma grows_g ops s g g1 s1 b : g_tbl g1 = g_tbl g -> grows (ops, s1, g1) b -> grows (ops, s, g) b.
Proof. destruct b as [[? ?] ?]. unfold grows, ids_of. intros -> A. exact A. Qed.
Lemma grows_each {X} (f : outcome -> X -> result outcome) xs :
  (forall a x b, f a x = Ok b -> grows a b) -> forall a b, for_each f xs a = Ok b -> grows a b.
Proof.
  intros F. induction xs as [|x xs IH]; cbn [for_each]; intros a b E; [injection E as <-; apply grows_refl|].
  apply bind_ok in E as (c & E1 & E). eapply grows_trans; [eapply F; exact E1|apply IH; exact E].
Qed.
Lemma grows_ops ops s g l s' g' : (forall o : op, In o l -> usual (snd o)) -> g_tbl g' = g_tbl g -> grows (ops, s, g) (ops ++ l, s', g').
Proof. intros L G T. split; [unfold ids_of; rewrite G; exact T|]. exists l. auto. Qed.
Lemma less_tbl g g' : less g g' -> g_tbl g' = g_tbl g. Proof. intros [A _]. exact A. Qed.

Lemma clean_loop_grows P solved : forall n i s ops g b, clean_loop n i P s solved ops g = Ok b -> grows (ops, s, g) b.
Proof.
  induction n as [|n IH]; cbn [clean_loop]; intros i s ops g b E; [discriminate|].
  destruct (_ && _ && _); [|injection E as <-; apply grows_refl].
  destruct (_ && _ && _ && _); [|injection E as <-; apply grows_refl].
  apply bind_ok in E as (s1 & S1 & E). destruct s1 as [|opr s2]; [discriminate|].
  apply IH in E. eapply grows_trans; [|exact E]. apply grows_ops; [|reflexivity].
  intros o [<- |[<- |[]]]; [apply u_swap|apply u_pop].
Qed.
Lemma clean_stack_grows P o s solved g b : clean_stack P o s solved g = Ok b -> grows ([], s, g) b.
Proof.
  unfold clean_stack. intros E. apply bind_ok in E as (far & _ & E). destruct (_ <=? _); [injection E as <-; apply grows_refl|].
  eapply clean_loop_grows; exact E.
Qed.

(** ** One value or operation *)
Definition one_grows (one : string -> list string -> gstate -> result outcome) : Prop :=
  forall o s g b, one o s g = Ok b -> grows ([], s, g) b.
Lemma in_tbl g j : ids_of g = I -> In j (g_tbl g) -> usual (i_id j).
Proof. intros T H. apply u_id. rewrite <- T. unfold ids_of. apply in_map. exact H. Qed.

Lemma push_zeroary_grows o i s g b : var_instr (g_tbl g) o = Some i -> push_zeroary o i s g = Ok b -> grows ([], s, g) b.
Proof.
  intros V E. destruct b as [[ops s'] g']. intros T. apply var_instr_some in V as [V _]. pose proof (in_tbl _ _ T V) as U.
  unfold push_zeroary in E. destruct (_ && _) in E.
  - apply bind_ok in E as (nm & _ & E). injection E as <- <- <-. split; [exact T|]. exists [(nm, i_id i)].
    split; [reflexivity|]. intros o' [<- |[]]. exact U.
  - apply bind_ok in E as (g1 & G & E). injection E as <- <- <-. split; [|exists [(i_disasm i, i_id i)]; split; [reflexivity|intros o' [<- |[]]; exact U]].
    unfold ids_of. rewrite <- T. unfold ids_of. f_equal. apply less_tbl.
    eapply less_trans; [apply (less_trans _ (bump g)); [split; auto|apply less_settle]|].
    destruct (needs _ _) in G; [eapply less_use_one; exact G|injection G as <-; apply less_refl].
Qed.
Lemma rotate_usual n : forall i s ops ops' s', rotate n i s ops = Ok (ops', s') -> exists l, ops' = ops ++ l /\ forall o, In o l -> usual (snd o).
Proof.
  induction n as [|n IH]; cbn [rotate]; intros i s ops ops' s' E; [injection E as <- <-; exists []; rewrite app_nil_r; split; [reflexivity|intros ? []]|].
  apply bind_ok in E as (y & _ & E). apply bind_ok in E as (t & _ & E). destruct (String.eqb t y); [eapply IH; eauto|].
  apply bind_ok in E as (s1 & S1 & E). apply IH in E as (l & -> & A). exists (same (swap_name (Z.of_nat i)) :: l).
  split; [rewrite <- app_assoc; reflexivity|]. intros o [<- |Ho]; [apply u_swap|auto].
Qed.
Lemma take_grows P o s solved idx g b : take_from_stack P o s solved idx g = Ok (Some b) -> grows ([], s, g) b.
Proof.
  unfold take_from_stack. intros E. destruct (_ && _) in E; [|discriminate]. apply bind_ok in E as (pos & _ & E).
  destruct (_ && _) in E; [|discriminate]. destruct (g_dup g =? 0).
  - destruct (pos =? 0); [injection E as <-; apply (grows_ops []); [intros ? []|reflexivity]|].
    apply bind_ok in E as (x & _ & E). apply bind_ok in E as (u & _ & E). apply bind_ok in E as (s1 & S1 & E). injection E as <-.
    apply (grows_ops [] s g [_]); [intros ? [<- |[]]; apply u_swap|reflexivity].
  - destruct (solved_below _ _); [discriminate|]. apply bind_ok in E as (u & _ & E). destruct (pos <=? _); [|discriminate].
    apply bind_ok in E as ([ops1 s1] & R & E). apply bind_ok in E as (u1 & _ & E). injection E as <-. cbn [fst snd].
    destruct (rotate_usual _ _ _ _ _ _ R) as (l & -> & L). apply (grows_ops [] s g); [exact L|reflexivity].
Qed.
Lemma from_stack_grows P o s solved idx g b : from_stack P o s solved idx g = Ok b -> grows ([], s, g) b.
Proof.
  unfold from_stack. intros E. apply bind_ok in E as (tk & TK & E). destruct tk as [r|].
  - injection E as ->. eapply take_grows; exact TK.
  - apply bind_ok in E as (g1 & G & E). injection E as <-. apply (grows_ops [] s g [_]); [intros ? [<- |[]]; apply u_dup|].
    apply less_tbl, less_with_dup. destruct (needs g o); [eapply less_use_one|eapply less_use_term]; exact G.
Qed.
Lemma compute_all_grows one : one_grows one -> forall os s g b, compute_all one os s g = Ok b -> grows ([], s, g) b.
Proof.
  intros O os s g b E. eapply grows_each; [|exact E]. cbv beta. intros [[ops s0] g0] x [[ops1 s1] g1] F.
  apply bind_ok in F as ([[n1 s2] g2] & F & F'). injection F' as <- <- <-. apply grows_after. eapply O. exact F.
Qed.
Lemma grows_last s g ops1 s1 g1 nm id s2 g2 : usual id -> grows ([], s, g) (ops1, s1, g1) -> g_tbl g2 = g_tbl g1 ->
  grows ([], s, g) (ops1 ++ [(nm, id)], s2, g2).
Proof. intros U A G. eapply grows_trans; [exact A|]. apply grows_ops; [intros ? [<- |[]]; exact U|exact G]. Qed.
Lemma compute_term_grows one P solved : one_grows one -> one_grows (compute_term one P solved).
Proof.
  intros O o s g b E. unfold compute_term in E. apply bind_ok in E as (u & _ & E). apply bind_ok in E as (j & J & E). apply of_option_ok in J.
  assert (Hj : In j (g_tbl g)) by (destruct (is_write o); [eapply opid_instr_some|eapply var_instr_some]; exact J).
  destruct b as [[ops' s'] g']. intros T. pose proof (in_tbl _ _ T Hj) as U. revert T. change (grows ([], s, g) (ops', s', g')).
  destruct (both_on_top _ _ _ _ _ _).
  { destruct s as [|x [|y rest]]; try discriminate. injection E as <- <- <-. apply (grows_ops [] _ _ [_]); [intros ? [<- |[]]; exact U|].
    apply less_tbl, less_with_dup. eapply less_trans; apply less_forget. }
  destruct (first_on_top _ _ _ _ _ _).
  { destruct (i_inpt j) as [|a [|c [|]]] eqn:In_; try discriminate. destruct s as [|x rest]; [discriminate|].
    apply bind_ok in E as ([[o1 s1] g1] & F & E). injection E as <- <- <-. apply O in F.
    assert (A : grows ([], x :: rest, g) (o1, s1, g1)) by (refine (grows_g _ _ _ _ _ _ _ F); apply less_tbl, less_forget).
    exact (grows_last _ _ _ _ _ _ _ [] _ U A eq_refl). }
  apply bind_ok in E as (rv & _ & E).
  apply bind_ok in E as ([[o1 s1] g1] & F & E). apply bind_ok in E as (u1 & _ & E). apply bind_ok in E as (u2 & _ & E). injection E as <- <- <-.
  apply (compute_all_grows one O) in F. exact (grows_last _ _ _ _ _ _ _ [] _ U F eq_refl).
Qed.
Lemma compute_one_grows P solved : forall fuel, one_grows (compute_one fuel P solved).
Proof.
  induction fuel as [|f IH]; intros o s g b E; [discriminate|]. cbn [compute_one] in E.
  destruct (if small_zeroary P (g_tbl g) o && negb (mem o (g_done g)) then var_instr (g_tbl g) o else None) as [i|] eqn:Z.
  { destruct (_ && _) in Z; [|discriminate]. eapply push_zeroary_grows; eauto. }
  apply bind_ok in E as (g1 & G & E).
  assert (L : less g g1).
  { destruct (_ && _ && _) in G; [|injection G as <-; apply less_refl]. apply bind_ok in G as ([[co cs] cg] & Cl & G). injection G as <-.
    cbn [snd]. eapply clean_stack_less; exact Cl. }
  eapply grows_g; [exact (less_tbl _ _ L)|]. destruct (needs g1 o && _) eqn:Nd.
  - apply bind_ok in E as (g2 & G2 & E). injection E as <-. apply (grows_ops [] s g1 [_]); [intros ? [<- |[]]; apply u_vget|].
    apply less_tbl, less_with_dup. eapply less_use_one; exact G2.
  - destruct (index_of o s) as [idx|] eqn:Ix.
    + destruct (idx <? g_reach P)%nat; [eapply from_stack_grows; eauto|eapply compute_term_grows; eauto].
    + eapply compute_term_grows; eauto.
Qed.

(** ** The values computed beforehand *)
Context (P : setup).
Lemma pre_list_tbl : forall fuel o cs a b, pre_compute_list fuel P o cs a = Ok b -> g_tbl (snd b) = g_tbl (snd a).
Proof.
  assert (Each : forall A (f : (list string * gstate) -> A -> result (list string * gstate)) xs,
    (forall c x d, f c x = Ok d -> g_tbl (snd d) = g_tbl (snd c)) -> forall c d, for_each f xs c = Ok d -> g_tbl (snd d) = g_tbl (snd c)).
  { intros A f xs F. induction xs as [|x xs IH]; cbn [for_each]; intros c d E; [injection E as <-; auto|].
    apply bind_ok in E as (c1 & E1 & E). rewrite (IH _ _ E). eapply F; exact E1. }
  induction fuel as [|f IH]; intros o cs a b E; [discriminate|]. cbn [pre_compute_list] in E.
  destruct (mem o cs); [injection E as <-; auto|]. apply bind_ok in E as (u & _ & E).
  destruct (mem o (fst a)); [injection E as <-; auto|]. apply bind_ok in E as (i & _ & E).
  apply bind_ok in E as (a1 & E1 & E). apply bind_ok in E as (a2 & E2 & E).
  assert (Q1 : g_tbl (snd a1) = g_tbl (snd a)) by (eapply Each; [|exact E1]; intros c x d F; exact (IH _ _ _ _ F)).
  assert (Q2 : g_tbl (snd a2) = g_tbl (snd a1)).
  { destruct (UtilModel.lookup o (g_func_deps P)) as [ops|] eqn:LK; [|injection E2 as <-; auto].
    eapply Each; [|exact E2]. cbv beta. intros c x d F. destruct (mem x (g_done (snd c))); [injection F as <-; auto|].
    apply IH in F. cbn [snd] in F. destruct (_ && _) in F; exact F. }
  destruct a2 as [lord g2]. cbn [snd] in *. destruct (_ && _) in E; injection E as <-; cbn [snd]; congruence.
Qed.
Lemma reverse_ids o tbl : map i_id (map (reverse_inputs o) tbl) = map i_id tbl.
Proof.
  rewrite map_map. apply map_ext. intros i. unfold reverse_inputs. destruct (i_outpt i) as [|y [|]]; try reflexivity.
  destruct (String.eqb y o); reflexivity.
Qed.
Lemma compute_pre_one_grows fuel solved o a b : compute_pre_one fuel P solved a o = Ok b -> grows a b.
Proof.
  destruct a as [[ops cs] g], b as [[ops' cs'] g']. unfold compute_pre_one. intros E.
  apply bind_ok in E as ([[co c1] g1] & E1 & E). apply bind_ok in E as (j & J & E). apply of_option_ok in J.
  apply bind_ok in E as (rv & _ & E). apply bind_ok in E as ([[po c2] g2] & E2 & E). apply bind_ok in E as (u & _ & E).
  injection E as <- <- <-. intros T. apply clean_stack_grows in E1. destruct (E1 T) as (T1 & l & El & Ul). cbn in El. subst l.
  set (inpts1 := if rv then rev (i_inpt j) else i_inpt j) in *. set (tbl1 := if rv then map (reverse_inputs o) (g_tbl g1) else g_tbl g1) in *.
  pose proof (var_instr_some _ _ _ J) as [Hj _]. pose proof (in_tbl _ _ T1 Hj) as U.
  apply (compute_all_grows _ (compute_one_grows P solved fuel)) in E2.
  destruct E2 as (T2 & l & El & Ul2). { unfold ids_of, tbl1. cbn. destruct rv; [rewrite reverse_ids|]; exact T1. } cbn in El. subst l.
  split.
  - unfold ids_of. rewrite (less_tbl _ _ (less_settle _ _)). cbn. rewrite reverse_ids. exact T2.
  - exists (co ++ po ++ [(i_disasm j, i_id j)]). split; [reflexivity|]. intros o' Ho. rewrite !in_app_iff in Ho.
    destruct Ho as [Ho|[Ho|[<- |[]]]]; auto.
Qed.
Lemma compute_pre_list_grows fuel solved lord cs g b : compute_pre_list fuel P solved lord cs g = Ok b -> grows ([], cs, g) b.
Proof. intros E. eapply grows_each; [|exact E]. intros a x c F. eapply compute_pre_one_grows; exact F. Qed.
Lemma compute_last_grows fuel solved o a b : compute_last fuel P solved o a = Ok b -> grows a b.
Proof.
  destruct a as [[ops cs] g], b as [[ops' cs'] g']. unfold compute_last. intros E.
  apply bind_ok in E as ([[co c1] g1] & E1 & E). apply bind_ok in E as ([[po c2] g2] & E2 & E). injection E as <- <- <-.
  apply grows_after. apply (grows_trans _ (co, c1, g1)); [eapply clean_stack_grows; exact E1|]. apply grows_after.
  apply compute_one_grows in E2. intros T. destruct (E2 T) as (T2 & l & El & Ul). split; [|eauto].
  unfold ids_of. rewrite (less_tbl _ _ (less_settle _ _)). exact T2.
Qed.
Lemma pre_grows fuel o cs g lord g1 b : pre_compute_list fuel P o cs ([], g) = Ok (lord, g1) -> grows ([], cs, g1) b -> grows ([], cs, g) b.
Proof. intros E. apply grows_g. exact (pre_list_tbl _ _ _ _ _ E). Qed.
Lemma compute_memory_op_grows fuel solved o cs g b : compute_memory_op fuel P solved o cs g = Ok b -> grows ([], cs, g) b.
Proof.
  unfold compute_memory_op. intros E. apply bind_ok in E as ([lord g1] & E1 & E). apply bind_ok in E as (a & E2 & E).
  apply compute_pre_list_grows in E2. eapply pre_grows; [exact E1|]. destruct (is_write o); cbn [negb] in E.
  - apply (grows_trans _ a); [exact E2|]. eapply compute_last_grows; exact E.
  - apply bind_ok in E as (l & _ & E). apply bind_ok in E as (u & _ & E). injection E as <-. exact E2.
Qed.
Lemma compute_regular_op_grows fuel solved o cs g b : compute_regular_op fuel P solved o cs g = Ok b -> grows ([], cs, g) b.
Proof.
  unfold compute_regular_op. intros E. apply bind_ok in E as ([lord g1] & E1 & E). apply bind_ok in E as (a & E2 & E).
  apply compute_pre_list_grows in E2. eapply pre_grows; [exact E1|]. destruct (mem o lord); [injection E as <-; exact E2|].
  apply (grows_trans _ a); [exact E2|]. eapply compute_last_grows; exact E.
Qed.
Lemma run_memory_grows fuel solved ms cs g b : run_memory fuel P solved ms cs g = Ok b -> grows ([], cs, g) b.
Proof.
  intros E. eapply grows_each; [|exact E]. intros [[o s] g0] m [[o2 s2] g2] F. cbv beta iota in F.
  apply bind_ok in F as ([[o1 s1] g1] & F & F'). injection F' as <- <- <-. apply grows_after.
  eapply grows_g; [|eapply compute_memory_op_grows; exact F]. reflexivity.
Qed.
Lemma pop_unneeded_grows solved g g0 : forall s, grows ([], s, g0) (fst (pop_unneeded P solved g s), snd (pop_unneeded P solved g s), g0).
Proof.
  induction s as [|x s IH]; cbn [pop_unneeded]; [apply grows_refl|]. destruct (_ && _ && _); [|apply grows_refl].
  cbn [fst snd]. intros T. destruct (IH T) as (T1 & l & El & Ul). cbn in El. split; [exact T|]. exists (same "POP" :: l).
  split; [cbn; rewrite El; reflexivity|]. intros o [<- |Ho]; [apply u_pop|auto].
Qed.

(** ** The loop *)
Lemma grows_swap ops s g pos s' : grows (ops, s, g) (ops ++ [same (swap_name pos)], s', g).
Proof. apply grows_ops; [intros ? [<- |[]]; apply u_swap|reflexivity]. Qed.
Lemma do_place_grows posc l l' : do_place P posc l = Ok l' -> grows (view l) (view l').
Proof.
  unfold do_place. intros E. apply bind_ok in E as (top & _ & E). apply bind_ok in E as (x & _ & E). destruct (String.eqb top x).
  - apply bind_ok in E as (u & _ & E). injection E as <-. apply grows_refl.
  - apply bind_ok in E as (u & U & E). apply bind_ok in E as (s1 & SW & E). apply bind_ok in E as (u1 & _ & E). injection E as <-.
    apply grows_swap.
Qed.
Lemma before_value_grows fuel o l out rest ns b : before_value fuel P o l = Ok (out, rest, ns, b) -> grows ([], l_stack l, l_g l) out.
Proof.
  unfold before_value. intros E. apply bind_ok in E as (i & _ & E). apply bind_ok in E as (j & _ & E).
  assert (G : forall plan, (do plan <- plan; let '(p, instr, nostore, before_store) := plan in
      do out <- run_memory fuel P (l_solved l) (firstn p instr) (l_stack l) (l_g l);
      let rest := skipn p instr in Ok (out, rest, match rest with [] => [] | _ => nostore end, before_store)) = Ok (out, rest, ns, b) ->
    grows ([], l_stack l, l_g l) out).
  { clear E. intros plan E. apply bind_ok in E as ([[[p ins] n] s] & Ep & E). apply bind_ok in E as (o1 & E1 & E). injection E as -> _ _ _.
    eapply run_memory_grows; exact E1. }
  destruct i as [k|]; [eapply G; exact E|]. destruct j as [q|]; [eapply G; exact E|]. injection E as <- _ _ _. apply grows_refl.
Qed.
Lemma do_build_grows fuel pos l l' : do_build fuel P pos l = Ok l' -> grows (view l) (view l').
Proof.
  unfold do_build. intros E. apply bind_ok in E as (o & O & E).
  apply bind_ok in E as ([[[out rest] ns] bs] & E1 & E). apply before_value_grows in E1.
  destruct out as [[o1 s1] g1]. apply bind_ok in E as ([[o2 s2] g2] & E2 & E).
  assert (A3 : grows ([], s1, g1) (o2, s2, g2)).
  { destruct bs; (eapply (grows_g [] s1 g1 (with_dup 0 g1)); [reflexivity|]); [eapply compute_memory_op_grows|eapply compute_regular_op_grows]; exact E2. }
  apply bind_ok in E as (g3 & E3 & E).
  assert (A4 : grows (o2, s2, g2) (o2, s2, g3)).
  { destruct (_ && _) in E3; [|injection E3 as <-; apply grows_refl]. apply bind_ok in E3 as (t & TT & E3). injection E3 as <-.
    intros T. split; [exact T|]. exists []. rewrite app_nil_r. split; [reflexivity|intros ? []]. }
  assert (A : grows (l_ops l, l_stack l, l_g l) (l_ops l ++ o1 ++ o2, s2, g3)).
  { apply grows_after. apply (grows_trans _ (o1, s1, g1)); [exact E1|]. apply grows_after. exact (grows_trans _ _ _ A3 A4). }
  destruct (_ && _) eqn:C in E.
  - apply bind_ok in E as (s3 & SW & E). apply bind_ok in E as (u & _ & E). injection E as <-.
    unfold view. cbn [l_ops l_stack l_g]. eapply grows_trans; [exact A|].
    rewrite !app_assoc. rewrite <- (app_assoc (l_ops l)). apply grows_swap.
  - injection E as <-. exact A.
Qed.
Lemma do_memory_grows fuel l l' : do_memory fuel P l = Ok l' -> grows (view l) (view l').
Proof.
  unfold do_memory. intros E. destruct (l_instr l) as [|o ins]; [discriminate|].
  apply bind_ok in E as ([[o1 s1] g1] & E1 & E). apply bind_ok in E as (u & _ & E). injection E as <-.
  apply grows_after. eapply grows_g; [|eapply compute_memory_op_grows; exact E1]. reflexivity.
Qed.
Lemma do_finish_grows fuel l l' : do_finish fuel P l = Ok l' -> grows (view l) (view l').
Proof.
  unfold do_finish. intros E. apply bind_ok in E as (u & _ & E). apply bind_ok in E as ([[o1 s1] g1] & E1 & E). injection E as <-.
  eapply grows_each; [|exact E1]. intros [[o s] g] m [[o3 s3] g3] F. cbv beta iota in F.
  apply bind_ok in F as ([[o2 s2] g2] & F & F'). injection F' as <- <- <-. apply compute_memory_op_grows in F.
  apply grows_after. apply (grows_trans _ (o2, s2, g2)); [eapply grows_g; [|exact F]; reflexivity|].
  apply grows_after. apply pop_unneeded_grows.
Qed.
Lemma search_step_grows fuel l l' b : search_step fuel P l = Ok (l', b) -> grows (view l) (view l').
Proof.
  unfold search_step. intros E. set (r := pop_unneeded P (l_solved l) (l_g l) (l_stack l)) in *.
  set (l1 := {| l_ops := _; l_stack := _; l_solved := _; l_instr := _; l_nostore := _; l_g := _ |}) in E.
  assert (A : grows (view l) (view l1)) by apply grows_after, pop_unneeded_grows.
  apply bind_ok in E as (st & _ & E). apply bind_ok in E as ([l2 stop] & E2 & E). injection E as <- <-.
  assert (G : grows (view l1) (view l2)).
  { destruct st.
    - apply bind_ok in E2 as (l3 & E3 & E2). injection E2 as <- <-. eapply do_memory_grows; eauto.
    - apply bind_ok in E2 as (c & _ & E2). destruct c as [posc|pos|]; apply bind_ok in E2 as (l3 & E3 & E2); injection E2 as <- <-;
        [eapply do_place_grows|eapply do_build_grows|eapply do_finish_grows]; eauto. }
  exact (grows_trans _ _ _ A G).
Qed.
Lemma search_loop_grows fuel : forall n l l', search_loop n fuel P l = Ok l' -> grows (view l) (view l').
Proof.
  induction n as [|n IH]; cbn [search_loop]; intros l l' E; [discriminate|].
  apply bind_ok in E as ([l1 b] & E1 & E). cbn [fst snd] in E. apply search_step_grows in E1.
  destruct b; [injection E as <-; exact E1|]. eapply grows_trans; [exact E1|apply IH; exact E].
Qed.
Lemma precompute_loop_grows : forall fuel s ops g b, precompute_loop fuel P s ops g = Ok b -> grows (ops, s, g) b.
Proof.
  induction fuel as [|f IH]; intros [|top rest] ops g b E; cbn [precompute_loop] in E; try discriminate;
    try (injection E as <-; apply grows_refl).
  destruct (match need g top with None => true | Some n => n =? 0 end).
  - apply IH in E. eapply grows_trans; [|exact E]. apply grows_ops; [intros ? [<- |[]]; apply u_pop|reflexivity].
  - destruct (home _ _ _) as [pos|]; [|injection E as <-; apply grows_refl]. apply bind_ok in E as (u & U & E).
    destruct (_ || _) eqn:C in E; [injection E as <-; apply grows_refl|]. apply bind_ok in E as (x & _ & E).
    destruct (String.eqb x top); [injection E as <-; apply grows_refl|]. apply bind_ok in E as (s1 & SW & E).
    apply IH in E. eapply grows_trans; [|exact E]. apply grows_swap.
Qed.
End Ids.

(** What is saved in the final permutation is fetched later. *)
Definition fetched_later (ids : list string) : Prop :=
  forall pre id post, ids = pre ++ id :: post -> forall x, id = vset_id x -> In (vget_id x) post.
Lemma remove_first_In x y r r' : remove_first x r = Some r' -> In y r -> y = x \/ In y r'.
Proof.
  revert r'. induction r as [|z r IH]; cbn; intros r' E; [discriminate|]. destruct (String.eqb_spec z x) as [-> |].
  - injection E as <-. intros [<- |H]; auto.
  - destruct (remove_first x r) as [r1|]; [|discriminate]. injection E as <-. intros [<- |H]; [right; left; reflexivity|].
    destruct (IH _ eq_refl H); [auto|right; right; auto].
Qed.
Lemma acts_fetch R s l s' : PermutProps.acts R s l s' -> forall x, In x (snd s) -> In x (snd s') \/ In (vget_id x) l.
Proof.
  intros H. induction H as [|s a s1 l s2 B _ IH]; intros x Hx; [auto|].
  assert (Q : In x (snd s1) \/ a = vget_id x).
  { destruct B; cbn [snd] in *; auto; try (left; apply in_app_iff; auto; fail).
    destruct (remove_first_In _ _ _ _ H Hx) as [-> |]; auto. }
  destruct Q as [Q| ->]; [|right; left; reflexivity]. destruct (IH _ Q); [auto|right; right; auto].
Qed.
Lemma vset_inj x y : vset_id x = vset_id y -> x = y.
Proof.
  unfold vset_id. cbn. intros H. injection H as H. revert y H. induction x as [|c x IH]; intros [|d y] H; cbn in H; auto.
  - injection H as <- H. destruct y; discriminate.
  - injection H as -> H. destruct x; discriminate.
  - injection H as -> H. f_equal. auto.
Qed.
Lemma acts_later R s l c : PermutProps.acts R s l (c, []) -> fetched_later l.
Proof.
  remember (c, []) as e eqn:Ee. intros H. induction H as [|s a s1 l s2 B A IH]; intros pre id post E x Ex; [destruct pre; discriminate|].
  destruct pre as [|p pre]; cbn in E; injection E as -> ->; [|eapply (IH Ee); [reflexivity|exact Ex]].
  assert (Q : In x (snd s1)).
  { destruct B; cbn [snd] in *; try discriminate. apply vset_inj in Ex. subst. apply in_app_iff. right. left. reflexivity. }
  subst s2. destruct (acts_fetch _ _ _ _ A _ Q) as [[]|F]; exact F.
Qed.
Lemma acts_usual R s l s' : PermutProps.acts R s l s' -> forall id, In id l -> usual [] id \/ exists x, id = vset_id x.
Proof.
  intros H. induction H as [|s a s1 l s2 B _ IH]; intros id Hid; [destruct Hid|]. destruct Hid as [<- |Hid]; [|auto].
  destruct B; [left; apply u_pop|left; apply u_pop|eauto|left; apply u_vget|left; apply u_swap].
Qed.
Lemma usual_vset I x : ~ In (vset_id x) I -> ~ usual I (vset_id x).
Proof. intros N [H|[H|[(z & H)|[(n & H)|(y & H)]]]]; [auto|discriminate..]. Qed.
Lemma usual_incl I J id : (forall x, In x I -> In x J) -> usual I id -> usual J id.
Proof. intros S [H|H]; [left; auto|right; exact H]. Qed.

(** The ids of the sequence. *)
Lemma search_ids P fuel pending nostore g ops tbl : search fuel P pending nostore g = Ok (ops, tbl) ->
  (forall z, In (swap_name z) (map snd ops) -> 1 <= z) ->
  map i_id tbl = map i_id (g_tbl g)
  /\ exists a b, map snd ops = a ++ b /\ (forall id, In id a -> usual (map i_id (g_tbl g)) id)
    /\ (forall id, In id b -> usual [] id \/ exists x, id = vset_id x) /\ fetched_later b.
Proof.
  unfold search, precompute, compute. intros E Hz. apply bind_ok in E as ([[[ini s0] g0] solved] & E0 & E).
  apply bind_ok in E0 as ([[o1 s1] g1] & E1 & E0). apply bind_ok in E0 as (sv & E2 & E0). injection E0 as <- <- <- <-.
  apply bind_ok in E as (l & E3 & E). apply bind_ok in E as (pids & E4 & E). injection E as <- <-.
  apply (precompute_loop_grows (map i_id (g_tbl g))) in E1. apply already_solved_less in E2. apply (search_loop_grows (map i_id (g_tbl g))) in E3.
  destruct (E1 eq_refl) as (T1 & a & Ea & U1). cbn in Ea. subst a.
  unfold view in E3. cbn [l_ops l_stack l_g] in E3. destruct E3 as (T2 & b & Eb & U2). { unfold ids_of. rewrite (less_tbl _ _ E2). exact T1. }
  cbn in Eb. subst b. split; [exact T2|]. exists (map snd (o1 ++ l_ops l)), pids.
  rewrite app_assoc, map_app, map_map. cbn [snd same]. rewrite map_id. split; [reflexivity|]. split.
  { intros id Hid. apply in_map_iff in Hid as (o & <- & Ho). apply in_app_iff in Ho as [Ho|Ho]; auto. }
  unfold compute_permut_and_clean in E4. apply PermutProps.permut_loop_emits in E4 as (pl & -> & H); [|cbn; lia]. cbn [p_ids p_c p_reg app] in *.
  assert (A : PermutProps.acts (Z.of_nat (g_reach P)) (l_stack l, []) pl (g_final P, [])).
  { apply H. intros z Hi. apply Hz. rewrite !map_app, !in_app_iff. right. right. rewrite map_map. rewrite map_id. exact Hi. }
  split; [eapply acts_usual; exact A|eapply acts_later; exact A].
Qed.

(** The ids of a sequence: operations of the block and stack operations, and
    what is saved is fetched later. *)
Definition shaped (I ids : list string) : Prop :=
  (forall id, In id ids -> usual I id \/ exists x, id = vset_id x)
  /\ forall x pre post, ~ In (vset_id x) I -> ids = pre ++ vset_id x :: post -> In (vget_id x) post.
Lemma app_split {A} (x : A) : forall a b pre post, a ++ b = pre ++ x :: post ->
  In x a \/ exists pre', b = pre' ++ x :: post.
Proof.
  induction a as [|y a IH]; cbn; intros b pre post E; [right; eauto|]. destruct pre as [|z pre]; cbn in E; injection E as -> E; [auto|].
  destruct (IH _ _ _ E); auto.
Qed.
Lemma search_shaped P fuel pending nostore g ops tbl : search fuel P pending nostore g = Ok (ops, tbl) ->
  (forall z, In (swap_name z) (map snd ops) -> 1 <= z) -> shaped (map i_id (g_tbl g)) (map snd ops).
Proof.
  intros E Z. destruct (search_ids _ _ _ _ _ _ _ E Z) as (_ & a & b & -> & A & B & F). split.
  - intros id Hid. apply in_app_iff in Hid as [Hid|Hid]; [auto|]. destruct (B _ Hid) as [H|H]; [left|auto].
    eapply usual_incl; [|exact H]. intros ? [].
  - intros x pre post N E'. apply app_split in E' as [H|(pre' & E')]; [exfalso; exact (usual_vset _ _ N (A _ H))|].
    eapply F; [exact E'|reflexivity].
Qed.
Lemma filter_split {A} (p : A -> bool) x : p x = true -> forall l pre post, filter p l = pre ++ x :: post ->
  exists pre' post', l = pre' ++ x :: post' /\ filter p post' = post.
Proof.
  intros Px. induction l as [|y l IH]; cbn; intros pre post E; [destruct pre; discriminate|].
  destruct (p y) eqn:Py.
  - destruct pre as [|z pre]; cbn in E; injection E as -> E; [exists [], l; auto|].
    destruct (IH _ _ E) as (p1 & q1 & -> & F). exists (z :: p1), q1. auto.
  - destruct (IH _ _ E) as (p1 & q1 & -> & F). exists (y :: p1), q1. auto.
Qed.
(** The clean-up at the end keeps this. *)
Lemma shaped_filter I ids ids' : shaped I ids -> (forall x, In x ids' -> In x ids) ->
  (forall p, p "SWAP1" = false -> filter p ids' = filter p ids) -> shaped I ids'.
Proof.
  intros [A B] Sub Fil. split; [auto|]. intros x pre post N E. set (p := fun id => String.eqb id (vset_id x) || String.eqb id (vget_id x)).
  assert (P1 : p (vset_id x) = true) by (unfold p; rewrite String.eqb_refl; reflexivity).
  assert (P2 : p (vget_id x) = true) by (unfold p; rewrite String.eqb_refl; apply orb_true_r).
  pose proof (Fil p eq_refl) as F. rewrite E, filter_app in F. cbn [filter] in F. rewrite P1 in F. symmetry in F.
  destruct (filter_split p _ P1 _ _ _ F) as (pre' & post' & E' & F'). pose proof (B _ _ _ N E') as H.
  assert (Q : In (vget_id x) (filter p post')) by (apply filter_In; auto). rewrite F' in Q. apply filter_In in Q. tauto.
Qed.
