(** The layouts around a block with several predecessors, for any live sets. *)
From Verif Require Import Base UtilModel UtilProps LevelProps LiveModel CfgModel LayoutModel LayoutProps UnifyModel UnifyProps LayoutGenModel LayoutGenSpec.
Open Scope string_scope. Open Scope list_scope.

Definition agrees (preds : list string) (phis : list phi) (p a v : string) : Prop :=
  reserved v \/ (exists f, In f phis /\ p_out f = v /\ phi_arg preds f p a) \/ (~ In v (map p_out phis) /\ a = v).

Definition unified (preds : list string) (phis : list phi) (lt : list string) (live : list (string * list string)) (junk : bool)
  (combined : list string) (stacks : list (string * list string)) : Prop :=
  incl lt combined /\ (forall p s, lookup p stacks = Some s -> In p preds) /\
  forall p, In p preds -> exists agreed rest, lookup p stacks = Some (agreed ++ rest)
    /\ Forall2 (agrees preds phis p) agreed combined /\ (junk = false -> rest = [])
    /\ forall lp x, lookup p live = Some lp -> In x lp -> ~ reserved x -> x <> "bottom" -> ~ In x (map p_out phis) -> incl (map p_out phis) lt -> In x agreed.

Lemma Forall2_map_l {A B} (P : B -> A -> Prop) f l : (forall x, In x l -> P (f x) x) -> Forall2 P (map f l) l.
Proof. induction l as [|x l IH]; intros H; constructor; [apply H; now left|]. apply IH. intros; apply H; now right. Qed.
Lemma stacks_keys (f : string -> list string) ps : forall d p s, lookup p (fold_left (fun d q => dict_set q (f q) d) ps d) = Some s -> In p ps \/ lookup p d = Some s.
Proof.
  induction ps as [|q ps IH]; intros d p s H; [now right|]. cbn [fold_left] in H. apply IH in H as [H|H]; [left; now right|].
  rewrite lookup_dict_set in H. destruct (String.eqb_spec q p) as [->|]; [left; now left|now right].
Qed.
Lemma unify_with_keys pf names preds lt info original oin junk combined stacks :
  unify_with pf names preds lt info original oin junk = Ok (combined, stacks) -> forall p s, lookup p stacks = Some s -> In p preds.
Proof.
  unfold unify_with. destruct (output_stack_layout _ _ _ _ _) as [[c j]|]; [|discriminate]. cbn [bind]. intros H. injection H as _ <-. intros p s L.
  change (lookup p (fold_left (fun d q => dict_set q ((fun q => let s := unify_stack_joint q c pf in if String.eqb q original then s else firstn j s) q) d) preds []) = Some s) in L.
  apply stacks_keys in L as [L|L]; [exact L|discriminate].
Qed.

Section Weak.
Variables (target : string) (preds : list string) (live : list (string * list string)) (phis : list phi) (lt : list string).
Hypotheses (Np : NoDup preds) (Ht : lookup target live = Some lt) (Nl : NoDup lt) (Hl : forall p, In p preds -> exists lp, lookup p live = Some lp)
  (No : NoDup (map p_out phis)) (Hi : forall f, In f phis -> length (p_ins f) = length preds)
  (Hb : forall i, ~ In (pseudo i) (map p_out phis)) (Hbot : forall f, In f phis -> ~ In "bottom" (p_ins f)).

Let live_set p := match lookup p live with Some l => l | None => [] end.
Let pf0 := phi_of_functions preds phis.
Let rem p := variables_to_remove pf0 lt (live_set p) p.
Let rows := zip_longest (map rem preds).
Let names := map pseudo (seq 0 (length rows)).
Let pf := fold_left (put_row preds) (combine names rows) pf0.

(** Everything follows from what the dictionary says of the names that are not
    reserved, and of the values that are not filler. *)
Lemma weak_with pf' info original oin junk combined stacks :
  NoDup (map fst (inner pf' original)) ->
  (forall p v, ~ In v names -> lookup v (inner pf' p) = lookup v (inner pf0 p)) ->
  (forall p v a, In p preds -> lookup v (inner pf p) = Some a -> a <> "bottom" -> lookup v (inner pf' p) = Some a) ->
  unify_with pf' names preds lt info original oin junk = Ok (combined, stacks) -> unified preds phis lt live junk combined stacks.
Proof.
  intros Nd Hreal Hval E.
  destruct (unify_with_spec pf' names preds lt info original oin junk Nl (pseudo_NoDup _ _) Nd) as (c & s & E' & Nc & Ic & Hs).
  rewrite E in E'. injection E' as <- <-.
  split; [intros x Ix; apply Ic; now left|]. split; [apply (unify_with_keys _ _ _ _ _ _ _ _ _ _ E)|].
  intros p Ip. destruct (Hs p Ip) as (rest & L & R1 & R2 & R3). exists (map (subst_of pf' p) combined), rest. split; [exact L|]. split; [|split; [exact R2|]].
  - apply Forall2_map_l. intros v Iv. destruct (in_dec string_dec v names) as [Inm|Nn].
    + left. apply (in_names preds live phis lt) in Inm as (i & -> & _). exists i. reflexivity.
    + right. unfold subst_of. rewrite (Hreal p v Nn). destruct (lookup v (inner pf0 p)) as [a|] eqn:La.
      * left. apply (pf0_arg preds phis Np No) in La. exact La.
      * right. split; [|reflexivity]. intros Hv. apply in_map_iff in Hv as (f & <- & If).
        destruct (phi_total preds phis Np Hi f p If Ip) as (a & A).
        assert (lookup (p_out f) (inner pf0 p) = Some a) by (apply (pf0_arg preds phis Np No); eauto). congruence.
  - intros lp x Lp Ix Rx Bx Ox Inc.
    assert (Nx : ~ In x names) by (intros I; apply (in_names preds live phis lt) in I as (i & -> & _); apply Rx; exists i; reflexivity).
    destruct (in_dec string_dec x lt) as [Il|Nl'].
    + apply in_map_iff. exists x. split; [|apply Ic; now left]. unfold subst_of. rewrite (Hreal p x Nx).
      destruct (lookup x (inner pf0 p)) as [a|] eqn:La; [|reflexivity]. apply (pf0_arg preds phis Np No) in La as (f & If & <- & _). exfalso. apply Ox. now apply in_map.
    + destruct (in_dec string_dec x (map snd (inner pf0 p))) as [Iv|Nv].
      * apply (pf0_values preds phis Np No) in Iv as (f & If & A). apply in_map_iff. exists (p_out f). split; [|apply Ic; left; apply Inc; now apply in_map].
        unfold subst_of. rewrite (Hreal p _ (out_not_name preds live phis lt Hb _ (in_map _ _ _ If))).
        assert (lookup (p_out f) (inner pf0 p) = Some x) as -> by (apply (pf0_arg preds phis Np No); eauto). reflexivity.
      * assert (Nv' : ~ exists f, In f phis /\ phi_arg preds f p x) by (intros H; apply Nv; apply (pf0_values preds phis Np No); exact H).
        assert (M := proj2 (rem_In preds live phis lt Np No p lp x Lp) (conj Ix (conj Nl' Nv'))).
        apply (In_nth _ _ "bottom") in M as (i & Li & Ei). pose proof (rem_bound preds live phis lt p Ip) as B.
        apply in_map_iff. exists (pseudo i). split.
        -- unfold subst_of. rewrite (Hval p (pseudo i) x Ip); [reflexivity| |exact Bx].
           assert (Li' : i < length (zip_longest (map rem preds))) by (unfold rem, pf0, live_set in *; lia).
           pose proof (pf_pseudo preds live phis lt Np p i Ip Li') as Q. etransitivity; [exact Q|]. f_equal. exact Ei.
        -- apply Ic. right. apply (in_names preds live phis lt). exists i. split; [reflexivity|lia].
Qed.

Lemma brothers_weak info original oin junk combined stacks :
  unify_stacks_brothers target preds live phis info original oin junk = Ok (combined, stacks) -> unified preds phis lt live junk combined stacks.
Proof.
  unfold unify_stacks_brothers. rewrite (generate_ok target preds live phis lt Ht Hl). cbn [bind]. unfold live_of. rewrite Ht. cbn [of_option bind].
  intros E. revert E. apply weak_with.
  - apply put_rows_NoDup. rewrite phi_of_functions_rows. apply put_rows_NoDup. constructor.
  - intros p v Nv. apply (pf_real preds live phis lt Np p v Nv).
  - auto.
Qed.

Lemma dominant_weak info original oin junk combined stacks values :
  unify_stacks_dominant target preds live phis info original oin junk = Ok (combined, stacks, values) -> unified preds phis lt live junk combined stacks.
Proof.
  unfold unify_stacks_dominant. rewrite (generate_ok target preds live phis lt Ht Hl). cbn [bind].
  match goal with |- context [map_result _ ?a] => change a with pf end.
  destruct (forallb _ (inner pf original)); [|discriminate]. cbn [py_assert bind].
  match goal with |- context [do pf' <- map_result ?g pf; _] => set (step := g) end.
  destruct (map_result step pf) as [pf'|] eqn:Epf; [|discriminate]. cbn [bind]. unfold live_of. rewrite Ht. cbn [of_option bind].
  match goal with |- context [unify_with pf' ?n _ _ _ _ _ _] => change n with names end.
  destruct (unify_with pf' names preds lt info original oin junk) as [[c s]|] eqn:E; [|discriminate]. cbn [bind]. intros H. injection H as <- <- _.
  assert (Nout : NoDup (map fst pf)).
  { unfold pf. apply put_rows_outer. unfold pf0. rewrite phi_of_functions_rows. apply put_rows_outer. constructor. }
  assert (Nd : forall p, NoDup (map fst (inner pf p))).
  { intros p. unfold pf. apply put_rows_NoDup. unfold pf0. rewrite phi_of_functions_rows. apply put_rows_NoDup. constructor. }
  destruct (map_result_dict step) with (d := pf) (d' := pf') as (_ & Hpf); [|exact Epf|].
  { intros [b d] r. unfold step. cbn [fst snd]. destruct (String.eqb b original); [intros H; injection H as <-; reflexivity|].
    destruct (map_result _ d); cbn [bind]; [|discriminate]. intros H; injection H as <-. reflexivity. }
  assert (Ho : inner pf' original = inner pf original).
  { unfold inner. specialize (Hpf original). destruct (lookup original pf) as [d|] eqn:L.
    - destruct Hpf as (b & S1 & ->). unfold step in S1. cbn [fst snd] in S1. rewrite String.eqb_refl in S1. injection S1 as <-. reflexivity.
    - now rewrite Hpf. }
  assert (Hn : forall p u, p <> original -> match lookup u (inner pf p) with
             | Some a => a <> "bottom" -> lookup u (inner pf' p) = Some a | None => lookup u (inner pf' p) = None end).
  { intros p u Hp. pose proof (Hpf p) as H. unfold inner. destruct (lookup p pf) as [d|] eqn:L; [|now rewrite H].
    destruct H as (b & S1 & ->). unfold step in S1. cbn [fst snd] in S1. destruct (String.eqb_spec p original) as [|_]; [contradiction|].
    match type of S1 with (do d <- map_result ?h d; _) = _ => destruct (map_result h d) as [d'|] eqn:Ed; [|discriminate S1];
      destruct (map_result_dict h) with (d := d) (d' := d') as (_ & Hd) end; [|exact Ed|].
    { intros [v a] r. cbn [fst snd]. destruct (of_option _); cbn [bind]; [|discriminate]. intros H; injection H as <-. reflexivity. }
    cbn [bind] in S1. injection S1 as <-. specialize (Hd u). destruct (lookup u d) as [a|] eqn:Lu; [|exact Hd].
    destruct Hd as (b & S2 & ->). cbn [fst snd] in S2. intros Na. destruct (String.eqb_spec a "bottom"); [contradiction|].
    cbn [of_option bind] in S2. injection S2 as <-. reflexivity. }
  apply (weak_with pf' info original oin junk c s); [| | |exact E].
  - rewrite Ho. apply Nd.
  - intros p v Nv. pose proof (pf_real preds live phis lt Np p v Nv) as Q0. transitivity (lookup v (inner pf p)); [|exact Q0].
    destruct (string_dec p original) as [->|Hp]; [now rewrite Ho|]. specialize (Hn p v Hp).
    destruct (lookup v (inner pf p)) as [a|] eqn:La; [|exact Hn]. apply Hn. intros ->.
    pose proof (pf_real preds live phis lt Np p v Nv) as Q. change (lookup v (inner pf p) = lookup v (inner pf0 p)) in Q. rewrite Q in La. apply (pf0_arg preds phis Np No) in La as (f & If & _ & (k & _ & A)).
    apply (Hbot f If). eapply nth_error_In; eauto.
  - intros p v a Ip La Na. destruct (string_dec p original) as [->|Hp]; [now rewrite Ho|]. specialize (Hn p v Hp). rewrite La in Hn. auto.
Qed.

Lemma brothers_total info original oin junk : exists combined stacks,
  unify_stacks_brothers target preds live phis info original oin junk = Ok (combined, stacks).
Proof.
  unfold unify_stacks_brothers. rewrite (generate_ok target preds live phis lt Ht Hl). cbn [bind]. unfold live_of. rewrite Ht. cbn [of_option bind].
  destruct (unify_with_spec pf names preds lt info original oin junk Nl (pseudo_NoDup _ _)) as (c & s & E & _).
  - apply put_rows_NoDup. unfold pf0. rewrite phi_of_functions_rows. apply put_rows_NoDup. constructor.
  - exists c, s. exact E.
Qed.
(** The only failure is the assertion on the original block. *)
Lemma dominant_total info original oin junk : In original preds ->
  unify_stacks_dominant target preds live phis info original oin junk = Raise AssertionError
  \/ exists combined stacks values, unify_stacks_dominant target preds live phis info original oin junk = Ok (combined, stacks, values).
Proof.
  intros Ior. unfold unify_stacks_dominant. rewrite (generate_ok target preds live phis lt Ht Hl). cbn [bind].
  match goal with |- context [map_result _ ?a] => change a with pf end.
  destruct (forallb _ (inner pf original)); [|left; reflexivity]. cbn [py_assert bind].
  assert (Nout : NoDup (map fst pf)).
  { unfold pf. apply put_rows_outer. unfold pf0. rewrite phi_of_functions_rows. apply put_rows_outer. constructor. }
  assert (Nd : forall p, NoDup (map fst (inner pf p))).
  { intros p. unfold pf. apply put_rows_NoDup. unfold pf0. rewrite phi_of_functions_rows. apply put_rows_NoDup. constructor. }
  assert (Dom : forall u p a, lookup u (inner pf p) = Some a -> exists b, lookup u (inner pf original) = Some b).
  { intros u p a Lu. destruct (in_dec string_dec u names) as [In_|Nn].
    - apply (in_names preds live phis lt) in In_ as (i & -> & Li). eexists. apply (pf_pseudo preds live phis lt Np original i Ior Li).
    - pose proof (pf_real preds live phis lt Np p u Nn) as Q. change (lookup u (inner pf p) = lookup u (inner pf0 p)) in Q. rewrite Q in Lu.
      apply (pf0_arg preds phis Np No) in Lu as (f & If & <- & A).
      destruct (phi_total preds phis Np Hi f original If Ior) as (b & B'). exists b.
      pose proof (pf_real preds live phis lt Np original _ Nn) as Q'. change (lookup (p_out f) (inner pf original) = lookup (p_out f) (inner pf0 original)) in Q'. rewrite Q'.
      apply (pf0_arg preds phis Np No). eauto. }
  match goal with |- context [do pf' <- map_result ?g pf; _] => set (step := g) end.
  destruct (map_result_exists step pf) as (pf' & Epf).
  { intros [b d] Ibd. unfold step. cbn [fst snd]. destruct (String.eqb_spec b original) as [->|Nb]; [eauto|].
    match goal with |- context [map_result ?h d] => destruct (map_result_exists h d) as (d' & Ed) end; [|rewrite Ed; cbn [bind]; eauto].
    intros [v a] Iva. cbn [fst snd]. destruct (String.eqb_spec a "bottom") as [->|Na]; [|cbn [of_option bind]; eauto].
    assert (inner pf b = d) as Hd by (unfold inner; now rewrite (lookup_NoDup _ _ _ Nout Ibd)).
    assert (lookup v (inner pf b) = Some "bottom") as Lv by (apply lookup_NoDup; [apply Nd|now rewrite Hd]).
    destruct (Dom v b _ Lv) as (c & ->). cbn [of_option bind]. eauto. }
  rewrite Epf. cbn [bind]. unfold live_of. rewrite Ht. cbn [of_option bind]. right.
  match goal with |- context [unify_with pf' ?n _ _ _ _ _ _] => change n with names end.
  destruct (map_result_dict step) with (d := pf) (d' := pf') as (_ & Hpf); [|exact Epf|].
  { intros [b d] r. unfold step. cbn [fst snd]. destruct (String.eqb b original); [intros H; injection H as <-; reflexivity|].
    destruct (map_result _ d); cbn [bind]; [|discriminate]. intros H; injection H as <-. reflexivity. }
  assert (Ho : inner pf' original = inner pf original).
  { unfold inner. specialize (Hpf original). destruct (lookup original pf) as [d|] eqn:L.
    - destruct Hpf as (b & S1 & ->). unfold step in S1. cbn [fst snd] in S1. rewrite String.eqb_refl in S1. injection S1 as <-. reflexivity.
    - now rewrite Hpf. }
  destruct (unify_with_spec pf' names preds lt info original oin junk Nl (pseudo_NoDup _ _)) as (c & s & E & _); [rewrite Ho; apply Nd|].
  rewrite E. cbn [bind]. eauto.
Qed.
End Weak.
