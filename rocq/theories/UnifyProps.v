(** C15: blocks with a common successor agree on its layout. *)
From Coq Require Import Sorting.Permutation.
From Verif Require Import Base UtilModel UtilProps LevelProps WebProps GraphProps LayoutModel LayoutProps UnifyModel.
Open Scope string_scope. Open Scope list_scope.

(* --- dictionaries --- *)
Lemma lookup_dict_set {A} k (v : A) d u : lookup u (dict_set k v d) = if String.eqb k u then Some v else lookup u d.
Proof.
  induction d as [|[k' v'] d IH]; cbn [dict_set lookup].
  - destruct (String.eqb_spec k u); reflexivity.
  - destruct (String.eqb_spec k' k) as [->|N]; cbn [lookup].
    + destruct (String.eqb_spec k u); reflexivity.
    + destruct (String.eqb_spec k' u) as [->|Nu]; [|exact IH]. destruct (String.eqb_spec k u); [congruence|reflexivity].
Qed.
Lemma dict_set_keys {A} k (v : A) d x : In x (map fst (dict_set k v d)) <-> x = k \/ In x (map fst d).
Proof.
  induction d as [|[k' v'] d IH]; cbn [dict_set map fst In]; [intuition|].
  destruct (String.eqb_spec k' k) as [->|N]; cbn [map fst In]; [intuition|]. rewrite IH. intuition.
Qed.
Lemma dict_set_NoDup {A} k (v : A) d : NoDup (map fst d) -> NoDup (map fst (dict_set k v d)).
Proof.
  induction d as [|[k' v'] d IH]; cbn [dict_set map fst]; intros N; [repeat constructor; auto|].
  inversion N as [|? ? N1 N2]; subst. destruct (String.eqb_spec k' k) as [->|Nk]; cbn [map fst]; [exact N|].
  constructor; [|auto]. intros H. apply dict_set_keys in H as [H|H]; auto.
Qed.
Lemma inner_phi_set pf p v a q : inner (phi_set pf p v a) q = if String.eqb p q then dict_set v a (inner pf p) else inner pf q.
Proof. unfold inner at 1, phi_set. rewrite lookup_dict_set. destruct (String.eqb_spec p q); [reflexivity|reflexivity]. Qed.

(* --- filling the phi dictionary row by row --- *)
Definition put_row (preds : list string) (pf : phi_dict) (nr : string * list string) : phi_dict :=
  fold_left (fun pf ap => phi_set pf (snd ap) (fst nr) (fst ap)) (combine (snd nr) preds) pf.
Lemma put_row_lookup preds v row : NoDup preds -> forall pf p u,
  lookup u (inner (put_row preds pf (v, row)) p) =
    if String.eqb v u then match lookup p (combine preds row) with Some a => Some a | None => lookup u (inner pf p) end
    else lookup u (inner pf p).
Proof.
  unfold put_row. cbn [fst snd]. revert row. induction preds as [|q preds IH]; intros [|a row] N pf p u; cbn [combine fold_left lookup];
    try (destruct (String.eqb v u); reflexivity).
  inversion N as [|? ? N1 N2]; subst. rewrite IH by exact N2. cbn [fst snd]. rewrite inner_phi_set.
  destruct (String.eqb_spec q p) as [->|Nq].
  - rewrite lookup_dict_set. assert (lookup p (combine preds row) = None) as ->.
    { apply lookup_None. intros H. apply N1. apply in_map_iff in H as ([k w] & <- & H). apply in_combine_l in H. exact H. }
    destruct (String.eqb v u); reflexivity.
  - reflexivity.
Qed.
Lemma put_rows_lookup preds : NoDup preds -> forall rs pf p u, NoDup (map fst rs) ->
  lookup u (inner (fold_left (put_row preds) rs pf) p) =
    match lookup u rs with
    | Some row => match lookup p (combine preds row) with Some a => Some a | None => lookup u (inner pf p) end
    | None => lookup u (inner pf p)
    end.
Proof.
  intros N. induction rs as [|[v row] rs IH]; intros pf p u Nr; cbn [fold_left lookup]; [reflexivity|].
  cbn [map fst] in Nr. inversion Nr as [|? ? N1 N2]; subst. rewrite IH by exact N2. rewrite (put_row_lookup preds v row N).
  destruct (String.eqb_spec v u) as [->|Nv]; [|reflexivity]. apply lookup_None in N1. rewrite N1. reflexivity.
Qed.
Lemma put_row_NoDup preds nr p : forall pf, NoDup (map fst (inner pf p)) -> NoDup (map fst (inner (put_row preds pf nr) p)).
Proof.
  unfold put_row. induction (combine (snd nr) preds) as [|[a q] l IH]; intros pf H; cbn [fold_left]; [exact H|].
  apply IH. cbn [fst snd]. rewrite inner_phi_set. destruct (String.eqb_spec q p) as [->|]; [apply dict_set_NoDup|]; exact H.
Qed.
Lemma put_rows_NoDup preds p : forall rs pf, NoDup (map fst (inner pf p)) -> NoDup (map fst (inner (fold_left (put_row preds) rs pf) p)).
Proof. induction rs as [|r rs IH]; intros pf H; cbn [fold_left]; [exact H|]. apply IH. now apply put_row_NoDup. Qed.

Definition phi_rows (phis : list phi) : list (string * list string) := map (fun f => (p_out f, p_ins f)) phis.
Lemma phi_of_functions_rows preds phis : phi_of_functions preds phis = fold_left (put_row preds) (phi_rows phis) [].
Proof.
  unfold phi_of_functions, phi_rows. generalize (@nil (string * list (string * string))). induction phis as [|f phis IH]; intros pf; cbn [fold_left map]; [reflexivity|].
  rewrite IH. reflexivity.
Qed.

(* --- the specification side --- *)
(** [a] is the argument of [f] for predecessor [p]. *)
Definition phi_arg (preds : list string) (f : phi) (p a : string) : Prop :=
  exists k, nth_error preds k = Some p /\ nth_error (p_ins f) k = Some a.
Lemma lookup_combine preds : NoDup preds -> forall (row : list string) p a,
  lookup p (combine preds row) = Some a <-> exists k, nth_error preds k = Some p /\ nth_error row k = Some a.
Proof.
  induction preds as [|q preds IH]; intros N row p a.
  - simpl. split; [discriminate|]. intros ([|k] & H & _); discriminate H.
  - destruct row as [|b row].
    + simpl. split; [discriminate|]. intros ([|k] & _ & H); discriminate H.
    + cbn [combine lookup]. inversion N as [|? ? N1 N2]; subst. destruct (String.eqb_spec q p) as [->|Nq].
      * split; [intros H; injection H as ->; exists 0; auto|]. intros ([|k] & H1 & H2); [exact H2|].
        exfalso. apply N1. simpl in H1. eapply nth_error_In; eauto.
      * rewrite (IH N2). split; [intros (k & H); exists (S k); exact H|]. intros ([|k] & H1 & H2); [simpl in H1; congruence|]. exists k. auto.
Qed.
Lemma lookup_combine_total preds (row : list string) p : length row = length preds -> In p preds -> exists a, lookup p (combine preds row) = Some a.
Proof.
  revert row. induction preds as [|q preds IH]; intros [|b row] L I; try discriminate L; [destruct I|]. cbn [combine lookup].
  destruct (String.eqb_spec q p) as [->|N]; [eauto|]. destruct I as [I|I]; [contradiction|]. apply IH; auto.
Qed.
Lemma lookup_phi_rows phis : NoDup (map p_out phis) -> forall v row, lookup v (phi_rows phis) = Some row <-> exists f, In f phis /\ p_out f = v /\ p_ins f = row.
Proof.
  intros N v row. split.
  - intros H. apply lookup_In in H. unfold phi_rows in H. apply in_map_iff in H as (f & E & I). injection E as <- <-. eauto.
  - intros (f & I & <- & <-). induction phis as [|g phis IH]; [destruct I|]. cbn [phi_rows map lookup]. simpl in N. inversion N as [|? ? N1 N2]; subst.
    destruct (String.eqb_spec (p_out g) (p_out f)) as [E|Ne].
    + destruct I as [->|I]; [reflexivity|]. exfalso. apply N1. rewrite E. apply in_map_iff. exists f. auto.
    + destruct I as [->|I]; [contradiction|]. apply IH; auto.
Qed.
Lemma map_fst_phi_rows phis : map fst (phi_rows phis) = map p_out phis.
Proof. unfold phi_rows. rewrite map_map. reflexivity. Qed.

Lemma pseudo_inj i j : pseudo i = pseudo j -> i = j.
Proof. unfold pseudo. intros H. simpl in H. injection H as H. now apply str_nat_inj. Qed.
Lemma pseudo_NoDup n : forall m, NoDup (map pseudo (seq m n)).
Proof.
  induction n as [|n IH]; intros m; simpl; constructor; [|apply IH].
  intros H. apply in_map_iff in H as (j & E & I). apply pseudo_inj in E. apply in_seq in I. lia.
Qed.

Lemma zip_longest_length ls : length (zip_longest ls) = list_max (map (@length string) ls).
Proof. unfold zip_longest. rewrite map_length, seq_length. reflexivity. Qed.
Lemma zip_longest_row ls i : i < list_max (map (@length string) ls) -> nth_error (zip_longest ls) i = Some (map (fun l => nth i l "bottom") ls).
Proof.
  intros H. unfold zip_longest. rewrite nth_error_map, nth_error_nth' with (d := 0) by (rewrite seq_length; exact H).
  rewrite seq_nth by exact H. reflexivity.
Qed.
Lemma map_fst_combine {A B} (ks : list A) : forall (vs : list B), length ks = length vs -> map fst (combine ks vs) = ks.
Proof. induction ks as [|k ks IH]; intros [|v vs] H; try discriminate H; simpl; [reflexivity|]. f_equal. apply IH. simpl in H. lia. Qed.
Lemma names_NoDup rows : NoDup (map fst (combine (map pseudo (seq 0 (length rows))) (rows : list (list string)))).
Proof. rewrite map_fst_combine; [apply pseudo_NoDup|]. now rewrite map_length, seq_length. Qed.
Lemma lookup_combine_key {A} ks : NoDup ks -> forall (vs : list A) i k v, nth_error ks i = Some k -> nth_error vs i = Some v -> lookup k (combine ks vs) = Some v.
Proof.
  induction ks as [|q ks IH]; intros N [|b vs] [|i] k v Hk Hv; try discriminate; cbn [combine lookup]; inversion N as [|? ? N1 N2]; subst; simpl in Hk, Hv.
  - injection Hk as ->. rewrite String.eqb_refl. exact Hv.
  - destruct (String.eqb_spec q k) as [->|]; [|eapply IH; eauto]. exfalso. apply N1. eapply nth_error_In; eauto.
Qed.
Lemma lookup_names (rows : list (list string)) i row : nth_error rows i = Some row -> lookup (pseudo i) (combine (map pseudo (seq 0 (length rows))) rows) = Some row.
Proof.
  intros H. assert (i < length rows) by (apply nth_error_Some; congruence).
  eapply lookup_combine_key; [apply pseudo_NoDup| |exact H]. rewrite nth_error_map, nth_error_nth' with (d := 0) by (now rewrite seq_length).
  rewrite seq_nth by assumption. reflexivity.
Qed.

(* --- the phi dictionary of a block and its predecessors --- *)
Lemma map_result_total {A B} (f : A -> result B) (g : A -> B) l : (forall x, In x l -> f x = Ok (g x)) -> map_result f l = Ok (map g l).
Proof.
  induction l as [|x l IH]; intros H; [reflexivity|]. cbn [map_result map]. rewrite (H x) by (left; reflexivity). cbn [bind].
  rewrite IH; [reflexivity|]. intros y I. apply H. now right.
Qed.
Lemma list_max_ge l n : In n l -> n <= list_max l.
Proof.
  intros H. pose proof (proj1 (list_max_le l (list_max l)) (Nat.le_refl _)) as F. rewrite Forall_forall in F. auto.
Qed.

Section Phis.
  Variables (target : string) (preds : list string) (live : list (string * list string)) (phis : list phi) (lt : list string).
  Hypotheses (Np : NoDup preds) (Ht : lookup target live = Some lt) (Hl : forall p, In p preds -> exists lp, lookup p live = Some lp)
    (No : NoDup (map p_out phis)) (Hi : forall f, In f phis -> length (p_ins f) = length preds)
    (Hb : forall i, ~ In (pseudo i) (map p_out phis)).

  Let live_set p := match lookup p live with Some l => l | None => [] end.
  Let pf0 := phi_of_functions preds phis.
  Let rem p := variables_to_remove pf0 lt (live_set p) p.
  Let rows := zip_longest (map rem preds).
  Let names := map pseudo (seq 0 (length rows)).
  Let pf := fold_left (put_row preds) (combine names rows) pf0.

  Lemma generate_ok : generate_phi_func target preds live phis = Ok (pf, names).
  Proof.
    unfold generate_phi_func, live_of. rewrite Ht. cbn [of_option bind].
    rewrite (map_result_total _ rem).
    - reflexivity.
    - intros p I. destruct (Hl p I) as (lp & E). unfold rem, live_set. rewrite E. reflexivity.
  Qed.

  Lemma pf0_lookup p u : lookup u (inner pf0 p) = match lookup u (phi_rows phis) with Some row => lookup p (combine preds row) | None => None end.
  Proof.
    unfold pf0. rewrite phi_of_functions_rows, (put_rows_lookup preds Np) by (rewrite map_fst_phi_rows; exact No).
    unfold inner at 1 2. cbn [lookup]. destruct (lookup u (phi_rows phis)) as [row|]; [|reflexivity].
    destruct (lookup p (combine preds row)); reflexivity.
  Qed.
  Lemma pf0_arg p u a : lookup u (inner pf0 p) = Some a <-> exists f, In f phis /\ p_out f = u /\ phi_arg preds f p a.
  Proof.
    rewrite pf0_lookup. split.
    - destruct (lookup u (phi_rows phis)) as [row|] eqn:E; [|discriminate]. intros H. apply (lookup_phi_rows phis No) in E as (f & I & Eo & Ei).
      exists f. split; [exact I|split; [exact Eo|]]. rewrite <- Ei in H. now apply lookup_combine in H.
    - intros (f & I & Eo & A). assert (lookup u (phi_rows phis) = Some (p_ins f)) as -> by (apply lookup_phi_rows; eauto).
      now apply lookup_combine.
  Qed.
  Lemma pf0_values p a : In a (map snd (inner pf0 p)) <-> exists f, In f phis /\ phi_arg preds f p a.
  Proof.
    split.
    - intros H. apply in_map_iff in H as ([u a'] & E & I). simpl in E. subst a'.
      assert (lookup u (inner pf0 p) = Some a) as L.
      { apply lookup_NoDup; [|exact I]. unfold pf0. rewrite phi_of_functions_rows. apply put_rows_NoDup. constructor. }
      apply pf0_arg in L as (f & If & _ & A). eauto.
    - intros (f & If & A). assert (lookup (p_out f) (inner pf0 p) = Some a) as L by (apply pf0_arg; eauto).
      apply lookup_In in L. apply in_map_iff. exists (p_out f, a). auto.
  Qed.
  Lemma pf_lookup p u : lookup u (inner pf p) =
    match lookup u (combine names rows) with
    | Some row => match lookup p (combine preds row) with Some a => Some a | None => lookup u (inner pf0 p) end
    | None => lookup u (inner pf0 p) end.
  Proof. unfold pf. apply put_rows_lookup; [exact Np|]. apply names_NoDup. Qed.
  Lemma in_names v : In v names <-> exists i, v = pseudo i /\ i < length rows.
  Proof.
    unfold names. rewrite in_map_iff. split; intros (i & H).
    - destruct H as [<- I]. apply in_seq in I. exists i. split; [reflexivity|lia].
    - destruct H as [-> L]. exists i. split; [reflexivity|]. apply in_seq. lia.
  Qed.
  Lemma names_fst u : In u (map fst (combine names rows)) <-> In u names.
  Proof. rewrite map_fst_combine; [reflexivity|]. unfold names. now rewrite map_length, seq_length. Qed.
  Lemma pf_real p u : ~ In u names -> lookup u (inner pf p) = lookup u (inner pf0 p).
  Proof. intros H. rewrite pf_lookup. rewrite <- names_fst in H. apply lookup_None in H. rewrite H. reflexivity. Qed.
  Lemma pf_pseudo p i : In p preds -> i < length rows -> lookup (pseudo i) (inner pf p) = Some (nth i (rem p) "bottom").
  Proof.
    intros Ip L. rewrite pf_lookup. assert (nth_error rows i = Some (map (fun l => nth i l "bottom") (map rem preds))) as R.
    { apply zip_longest_row. unfold rows in L. now rewrite zip_longest_length in L. }
    rewrite map_map in R. unfold names. rewrite (lookup_names rows i _ R).
    assert (lookup p (combine preds (map (fun x => nth i (rem x) "bottom") preds)) = Some (nth i (rem p) "bottom")) as ->; [|reflexivity].
    apply lookup_combine; [exact Np|]. apply In_nth_error in Ip as (k & Ek). exists k. split; [exact Ek|]. now rewrite nth_error_map, Ek.
  Qed.
  Lemma rem_bound p : In p preds -> length (rem p) <= length rows.
  Proof. intros I. unfold rows. rewrite zip_longest_length. apply list_max_ge. apply in_map. now apply in_map. Qed.
  Lemma rem_In p lp x : lookup p live = Some lp -> (In x (rem p) <-> In x lp /\ ~ In x lt /\ ~ exists f, In f phis /\ phi_arg preds f p x).
  Proof.
    intros E. unfold rem, variables_to_remove, live_set. rewrite E, filter_In, negb_true_iff, orb_false_iff, !mem_false, pf0_values. tauto.
  Qed.
  Lemma out_not_name v : In v (map p_out phis) -> ~ In v names.
  Proof. intros H I. apply in_names in I as (i & -> & _). exact (Hb i H). Qed.
  Lemma phi_total f p : In f phis -> In p preds -> exists a, phi_arg preds f p a.
  Proof. intros If Ip. destruct (lookup_combine_total preds (p_ins f) p (Hi f If) Ip) as (a & H). apply lookup_combine in H; [|exact Np]. exists a. exact H. Qed.
End Phis.

(* --- from the phi dictionary to the layouts --- *)
Lemma combined_loop_inverse lt d : NoDup (map fst d) -> forall rs added, (forall x, In x rs -> lookup x d = None) ->
  map (fun v => match lookup v d with Some a => a | None => v end) (combined_loop lt d added rs) = rs.
Proof.
  intros N. induction rs as [|v rs IH]; intros added H; [reflexivity|]. cbn [combined_loop].
  assert (H' : forall x, In x rs -> lookup x d = None) by (intros; apply H; now right).
  destruct (mem v lt).
  - cbn [map]. rewrite (H v) by (left; reflexivity). f_equal. now apply IH.
  - destruct (find _ d) as [[o i]|] eqn:F; cbn [map].
    + apply find_some in F as (I & E). cbn [fst snd] in E. apply andb_true_iff in E as (E & _). apply String.eqb_eq in E. subst i.
      rewrite (lookup_NoDup _ _ _ N I). f_equal. now apply IH.
    + rewrite (H v) by (left; reflexivity). f_equal. now apply IH.
Qed.
Lemma stacks_lookup (f : string -> list string) ps p : lookup p (fold_left (fun d q => dict_set q (f q) d) ps []) = if in_dec string_dec p ps then Some (f p) else None.
Proof.
  assert (G : forall d, lookup p (fold_left (fun d q => dict_set q (f q) d) ps d) = if in_dec string_dec p ps then Some (f p) else lookup p d).
  { induction ps as [|q ps IH]; intros d; [reflexivity|]. cbn [fold_left]. rewrite IH, lookup_dict_set.
    destruct (in_dec string_dec p ps) as [I|NI]; destruct (in_dec string_dec p (q :: ps)) as [J|NJ]; try reflexivity.
    - exfalso. apply NJ. now right.
    - destruct J as [->|J]; [|contradiction]. now rewrite String.eqb_refl.
    - destruct (String.eqb_spec q p) as [->|]; [|reflexivity]. exfalso. apply NJ. now left. }
  apply G.
Qed.
Lemma NoDup_app_intro {A} (l1 l2 : list A) : NoDup l1 -> NoDup l2 -> (forall x, In x l1 -> ~ In x l2) -> NoDup (l1 ++ l2).
Proof.
  induction l1 as [|x l1 IH]; intros N1 N2 D; [exact N2|]. inversion N1; subst. simpl. constructor.
  - rewrite in_app_iff. intros [H|H]; [auto|]. apply (D x); [now left|exact H].
  - apply IH; auto. intros y Iy. apply D. now right.
Qed.
Definition subst_of (pf : phi_dict) (p v : string) : string := match lookup v (inner pf p) with Some a => a | None => v end.
Lemma unify_with_spec pf names preds lt info original oin junk : NoDup lt -> NoDup names -> NoDup (map fst (inner pf original)) ->
  exists combined stacks, unify_with pf names preds lt info original oin junk = Ok (combined, stacks)
  /\ NoDup combined /\ (forall x, In x combined <-> In x lt \/ In x names)
  /\ forall p, In p preds -> exists rest, lookup p stacks = Some (map (subst_of pf p) combined ++ rest)
       /\ (p <> original -> rest = []) /\ (junk = false -> rest = [])
       /\ (p = original -> (forall x, In x oin -> lookup x (inner pf original) = None) -> exists pre, oin = pre ++ rest).
Proof.
  intros Nl Nn Nd. unfold unify_with. set (lp := lt ++ filter (fun x => negb (mem x lt)) names).
  assert (NoDup lp) as Nlp.
  { unfold lp. apply NoDup_app_intro; [exact Nl|now apply NoDup_filter|]. intros x Ix H. apply filter_In in H as (_ & H). apply negb_true_iff, mem_false in H. auto. }
  set (init := generate_combined_block_from_original oin lp (inner pf original)).
  destruct (output_layout_correct init [] lp (map (fun k => (k, [0%Z])) names ++ info) junk Nlp) as (body & tail & E & Nb & Ib & (pre & Hp) & Hj).
  rewrite E. cbn [bind app length plus]. exists body. eexists. split; [|split; [exact Nb|split]].
  - rewrite firstn_app, firstn_all, Nat.sub_diag. cbn [firstn]. rewrite app_nil_r. reflexivity.
  - intros x. rewrite Ib. unfold lp. rewrite in_app_iff, filter_In, negb_true_iff, mem_false. cbn [In].
    destruct (in_dec string_dec x lt); intuition.
  - intros p Ip. rewrite stacks_lookup. destruct (in_dec string_dec p preds) as [_|N]; [|contradiction].
    unfold unify_stack_joint. fold (subst_of pf p). rewrite map_app. destruct (String.eqb_spec p original) as [->|No].
    + exists (map (subst_of pf original) tail). split; [reflexivity|]. split; [congruence|]. split; [intros Hf; now rewrite (Hj Hf)|].
      intros _ H. exists (map (subst_of pf original) pre). rewrite <- map_app, <- Hp. unfold init, generate_combined_block_from_original.
      rewrite map_rev. unfold subst_of. rewrite combined_loop_inverse; [now rewrite rev_involutive|exact Nd|].
      intros x Ix. apply H. now apply in_rev.
    + exists []. rewrite app_nil_r. split; [|split; [reflexivity|split; [reflexivity|contradiction]]].
      rewrite firstn_app, map_length, Nat.sub_diag. cbn [firstn]. rewrite app_nil_r, firstn_all2 by (rewrite map_length; lia). reflexivity.
Qed.
Lemma Forall2_map_self {A B} (P : A -> B -> Prop) f l : (forall x, In x l -> P x (f x)) -> Forall2 P l (map f l).
Proof. induction l as [|x l IH]; intros H; constructor; [apply H; now left|]. apply IH. intros; apply H; now right. Qed.

(** What the blocks [preds] and their common successor must satisfy: one entry
    of the live sets for each block (live-in for the target, live-out for the
    predecessors), distinct phi results with one argument per predecessor, and
    no variable of the target with one of the reserved names b0, b1, ... *)
Definition joint (target : string) (preds : list string) (live : list (string * list string)) (phis : list phi) (lt : list string) : Prop :=
  NoDup preds /\ lookup target live = Some lt /\ NoDup lt
  /\ (forall p, In p preds -> exists lp, lookup p live = Some lp)
  /\ NoDup (map p_out phis)
  /\ (forall f, In f phis -> length (p_ins f) = length preds)
  /\ (forall i, ~ In (pseudo i) (map p_out phis) /\ ~ In (pseudo i) lt).

(** The value a predecessor [p], with live-out set [lp], must hold where the
    common successor holds [v]: the phi argument if [v] is a phi result, [v]
    itself if the successor needs it, and otherwise either a variable that
    the successor does not need or (if [filler] allows it) filler. *)
Definition matching (preds : list string) (phis : list phi) (lt lp : list string) (filler : string -> Prop) (p v a : string) : Prop :=
  (exists f, In f phis /\ p_out f = v /\ phi_arg preds f p a)
  \/ (~ In v (map p_out phis) /\ In v lt /\ a = v)
  \/ (~ In v (map p_out phis) /\ ~ In v lt /\ (filler a \/ In a lp /\ ~ In a lt)).

(** C15.  All predecessors end with the same shape. *)
Theorem brothers_layouts_agree : forall target preds live phis info original oin junk lt, joint target preds live phis lt ->
  exists combined stacks,
    unify_stacks_brothers target preds live phis info original oin junk = Ok (combined, stacks)
    /\ NoDup combined /\ incl lt combined
    /\ forall p lp, In p preds -> lookup p live = Some lp ->
       exists agreed rest, lookup p stacks = Some (agreed ++ rest)
         /\ Forall2 (matching preds phis lt lp (fun a => a = "bottom") p) combined agreed
         /\ (p <> original \/ junk = false -> rest = [])
         /\ (p = original -> (forall x, In x oin -> ~ In x (map p_out phis) /\ forall i, x <> pseudo i) -> exists pre, oin = pre ++ rest)
         /\ (incl (map p_out phis) lt -> forall x, In x lp -> ~ In x (map p_out phis) -> In x agreed).
Proof.
  intros target preds live phis info original oin junk lt (Np & Ht & Nl & Hl & No & Hi & Hbb).
  assert (Hb : forall i, ~ In (pseudo i) (map p_out phis)) by (intros i; apply Hbb).
  unfold unify_stacks_brothers. rewrite (generate_ok target preds live phis lt Ht Hl). cbn [bind]. unfold live_of. rewrite Ht. cbn [of_option bind].
  match goal with |- context [unify_with ?a ?b _ _ _ _ _ _] => set (pf := a); set (names := b) end.
  assert (Nd : NoDup (map fst (inner pf original))).
  { unfold pf. apply put_rows_NoDup. rewrite phi_of_functions_rows. apply put_rows_NoDup. constructor. }
  destruct (unify_with_spec pf names preds lt info original oin junk Nl (pseudo_NoDup _ _) Nd) as (combined & stacks & E & Nc & Ic & Hs).
  exists combined, stacks. split; [exact E|]. split; [exact Nc|]. split; [intros x Ix; apply Ic; now left|].
  intros p lp Ip Lp. destruct (Hs p Ip) as (rest & L & R1 & R2 & R3).
  exists (map (subst_of pf p) combined), rest. split; [exact L|].
  assert (Out : forall v, In v (map p_out phis) -> exists f, In f phis /\ p_out f = v /\ phi_arg preds f p (subst_of pf p v)).
  { intros v Hv. pose proof (out_not_name preds live phis lt Hb v Hv) as Nv. apply in_map_iff in Hv as (f & <- & If).
    destruct (phi_total preds phis Np Hi f p If Ip) as (a & A). exists f. split; [exact If|split; [reflexivity|]].
    unfold subst_of, pf. rewrite (pf_real preds live phis lt Np p _ Nv).
    assert (lookup (p_out f) (inner (phi_of_functions preds phis) p) = Some a) as -> by (apply (pf0_arg preds phis Np No); eauto). exact A. }
  assert (NotOut : forall v, ~ In v (map p_out phis) -> ~ In v names -> subst_of pf p v = v).
  { intros v Hv Nv. unfold subst_of, pf. rewrite (pf_real preds live phis lt Np p _ Nv).
    destruct (lookup v (inner (phi_of_functions preds phis) p)) as [a|] eqn:Ea; [|reflexivity].
    apply (pf0_arg preds phis Np No) in Ea as (f & If & <- & _). exfalso. apply Hv. now apply in_map. }
  split; [|split; [|split]].
  - apply Forall2_map_self. intros v Iv. unfold matching. destruct (in_dec string_dec v (map p_out phis)) as [Hv|Hv]; [left; auto|right].
    apply Ic in Iv. destruct (in_dec string_dec v lt) as [Il|Nl']; [left|right].
    + split; [exact Hv|split; [exact Il|]]. apply NotOut; [exact Hv|]. intros In_. apply in_names in In_ as (i & -> & _). exact (proj2 (Hbb i) Il).
    + split; [exact Hv|split; [exact Nl'|]]. destruct Iv as [Iv|Iv]; [contradiction|]. apply in_names in Iv as (i & -> & Li).
      unfold subst_of, pf. rewrite (pf_pseudo preds live phis lt Np p i Ip Li).
      match goal with |- context [nth i ?l _] => destruct (Nat.lt_ge_cases i (length l)) as [Lt|Ge] end.
      * right. pose proof (nth_In _ "bottom" Lt) as M. apply (rem_In preds live phis lt Np No p lp _ Lp) in M. tauto.
      * left. now apply nth_overflow.
  - intros [Hp|Hj]; auto.
  - intros Ep H. apply R3; [exact Ep|]. intros x Ix. destruct (H x Ix) as (H1 & H2).
    unfold pf. rewrite (pf_real preds live phis lt Np original x).
    + destruct (lookup x (inner (phi_of_functions preds phis) original)) as [a|] eqn:Ea; [|reflexivity].
      apply (pf0_arg preds phis Np No) in Ea as (f & If & <- & _). exfalso. apply H1. now apply in_map.
    + intros I. apply in_names in I as (i & -> & _). exact (H2 i eq_refl).
  - intros Inc x Ix Hx. destruct (in_dec string_dec x lt) as [Il|Nl'].
    + apply in_map_iff. exists x. split; [|apply Ic; now left]. apply NotOut; [exact Hx|]. intros I. apply in_names in I as (i & -> & _). exact (proj2 (Hbb i) Il).
    + destruct (in_dec string_dec x (map snd (inner (phi_of_functions preds phis) p))) as [Iv|Nv].
      * apply (pf0_values preds phis Np No) in Iv as (f & If & A). apply in_map_iff. exists (p_out f). split; [|apply Ic; left; apply Inc; now apply in_map].
        unfold subst_of, pf. rewrite (pf_real preds live phis lt Np p _ (out_not_name preds live phis lt Hb _ (in_map _ _ _ If))).
        assert (lookup (p_out f) (inner (phi_of_functions preds phis) p) = Some x) as -> by (apply (pf0_arg preds phis Np No); eauto). reflexivity.
      * rewrite (pf0_values preds phis Np No) in Nv.
        assert (M := proj2 (rem_In preds live phis lt Np No p lp x Lp) (conj Ix (conj Nl' Nv))).
        apply (In_nth _ _ "bottom") in M as (i & Li & Ei). pose proof (rem_bound preds live phis lt p Ip) as B.
        apply in_map_iff. exists (pseudo i). split.
        -- unfold subst_of, pf. rewrite (pf_pseudo preds live phis lt Np p i Ip) by lia. exact Ei.
        -- apply Ic. right. apply (in_names preds live phis lt). exists i. split; [reflexivity|lia].
Qed.
Print Assumptions brothers_layouts_agree.

(** A join of two blocks: phi result x with arguments a and b, y needed by the
    successor, and c live only out of the first block. *)
Definition ex_live : list (string * list string) := [("T", ["x"; "y"]); ("P", ["a"; "y"; "c"]); ("Q", ["b"; "y"])].
Definition ex_phis : list phi := [Build_phi "x" ["a"; "b"]].
Example brothers_example : joint "T" ["P"; "Q"] ex_live ex_phis ["x"; "y"]
  /\ unify_stacks_brothers "T" ["P"; "Q"] ex_live ex_phis [] "P" ["c"; "y"; "z"] true
     = Ok (["b0"; "y"; "x"], [("P", ["c"; "y"; "a"]); ("Q", ["bottom"; "y"; "b"])]).
Proof.
  split; [|vm_compute; reflexivity]. unfold joint. split; [repeat constructor; simpl; intuition congruence|]. split; [reflexivity|].
  split; [repeat constructor; simpl; intuition congruence|]. split; [intros p [<-|[<-|[]]]; simpl; eauto|].
  split; [repeat constructor; simpl; tauto|]. split; [intros f [<-|[]]; reflexivity|].
  intros i. unfold pseudo. simpl. split; intros H; repeat destruct H as [H|H]; congruence || destruct H.
Qed.

(** The statement of C15 without the restriction on phi results is false: a
    phi result that is also live out of a predecessor (it leaves through
    another successor) is missing from the layout of that predecessor. *)
Theorem brothers_phi_result_lost_refuted : exists target preds live phis lt p lp x stacks s combined,
  joint target preds live phis lt /\ incl (map p_out phis) lt /\ In p preds /\ lookup p live = Some lp /\ In x lp
  /\ unify_stacks_brothers target preds live phis [] p lp false = Ok (combined, stacks)
  /\ lookup p stacks = Some s /\ ~ In x s.
Proof.
  exists "T", ["P"; "Q"], [("T", ["x"]); ("P", ["a"]); ("Q", ["x"; "b"])], ex_phis, ["x"], "Q", ["x"; "b"], "x". do 3 eexists.
  split; [|split; [|split; [|split; [|split; [|split; [vm_compute; reflexivity|split; [reflexivity|]]]]]]].
  - unfold joint. split; [repeat constructor; simpl; intuition congruence|]. split; [reflexivity|].
    split; [repeat constructor; simpl; intuition congruence|]. split; [intros p [<-|[<-|[]]]; simpl; eauto|].
    split; [repeat constructor; simpl; tauto|]. split; [intros f [<-|[]]; reflexivity|].
    intros i. unfold pseudo. simpl. split; intros H; repeat destruct H as [H|H]; congruence || destruct H.
  - intros x H. exact H.
  - simpl. auto.
  - reflexivity.
  - simpl. auto.
  - simpl. intuition discriminate.
Qed.

(** Without the restriction on reserved names: a variable called b0 that the
    successor needs is replaced by filler in one of the predecessors. *)
Theorem brothers_reserved_name_refuted : exists target preds live lt p lp stacks s combined,
  NoDup preds /\ lookup target live = Some lt /\ NoDup lt /\ In p preds /\ lookup p live = Some lp
  /\ In "b0" lt /\ In "b0" lp
  /\ unify_stacks_brothers target preds live [] [] p lp false = Ok (combined, stacks)
  /\ lookup p stacks = Some s /\ ~ In "b0" s.
Proof.
  exists "T", ["P"; "Q"], [("T", ["b0"]); ("P", ["b0"; "c"]); ("Q", ["b0"])], ["b0"], "Q", ["b0"]. do 3 eexists.
  split; [repeat constructor; simpl; intuition congruence|]. split; [reflexivity|]. split; [repeat constructor; simpl; tauto|].
  split; [simpl; auto|]. split; [reflexivity|]. split; [simpl; auto|]. split; [simpl; auto|]. split; [vm_compute; reflexivity|].
  split; [reflexivity|]. simpl. intuition discriminate.
Qed.

(* --- the dominated case --- *)
Lemma map_result_dict {A B} (f : string * A -> result (string * B)) : (forall kv r, f kv = Ok r -> fst r = fst kv) -> forall d d', map_result f d = Ok d' ->
  map fst d' = map fst d /\ forall k, match lookup k d with
    | None => lookup k d' = None
    | Some v => exists b, f (k, v) = Ok (k, b) /\ lookup k d' = Some b end.
Proof.
  intros Hf. induction d as [|[k0 v0] d IH]; intros d' E; cbn [map_result] in E.
  - injection E as <-. split; [reflexivity|]. intros k. reflexivity.
  - destruct (f (k0, v0)) as [[k1 b]|] eqn:F; [|discriminate]. cbn [bind] in E. pose proof (Hf _ _ F) as K. simpl in K. subst k1.
    destruct (map_result f d) as [ds|] eqn:M; [|discriminate]. cbn [bind] in E. injection E as <-. destruct (IH ds eq_refl) as (H1 & H2).
    split; [simpl; now rewrite H1|]. intros k. cbn [lookup]. destruct (String.eqb_spec k0 k) as [->|N]; [exists b; auto|apply H2].
Qed.
Lemma map_result_exists {A B} (f : A -> result B) l : (forall x, In x l -> exists b, f x = Ok b) -> exists bs, map_result f l = Ok bs.
Proof.
  induction l as [|x l IH]; intros H; [exists []; reflexivity|]. destruct (H x (or_introl eq_refl)) as (b & E).
  destruct (IH (fun y I => H y (or_intror I))) as (bs & Es). exists (b :: bs). cbn [map_result]. rewrite E. cbn [bind]. now rewrite Es.
Qed.
Lemma put_rows_outer preds : forall rs pf, NoDup (map fst pf) -> NoDup (map fst (fold_left (put_row preds) rs pf)).
Proof.
  induction rs as [|r rs IH]; intros pf H; cbn [fold_left]; [exact H|]. apply IH. unfold put_row.
  revert pf H. induction (combine (snd r) preds) as [|[a q] l IHl]; intros pf H; cbn [fold_left]; [exact H|]. apply IHl. now apply dict_set_NoDup.
Qed.

(** The same for the variant used when one predecessor dominates the other:
    instead of filler, the other predecessor carries the variable of
    [original], and all variables carried like this are reported. *)
Theorem dominant_layouts_agree : forall target preds live phis info original oin junk lt, joint target preds live phis lt ->
  In original preds -> (forall f, In f phis -> ~ In "bottom" (p_ins f)) -> (forall p lp, In p preds -> lookup p live = Some lp -> ~ In "bottom" lp) ->
  unify_stacks_dominant target preds live phis info original oin junk = Raise AssertionError
  \/ exists combined stacks values ostack,
    unify_stacks_dominant target preds live phis info original oin junk = Ok (combined, stacks, values)
    /\ NoDup combined /\ incl lt combined
    /\ lookup original stacks = Some ostack /\ incl values (firstn (length combined) ostack)
    /\ forall p lp, In p preds -> lookup p live = Some lp ->
       exists agreed rest, lookup p stacks = Some (agreed ++ rest)
         /\ Forall2 (matching preds phis lt lp (fun a => p <> original /\ In a values) p) combined agreed
         /\ (p <> original \/ junk = false -> rest = [])
         /\ (p = original -> (forall x, In x oin -> ~ In x (map p_out phis) /\ forall i, x <> pseudo i) -> exists pre, oin = pre ++ rest)
         /\ (incl (map p_out phis) lt -> forall x, In x lp -> ~ In x (map p_out phis) -> In x agreed).
Proof.
  intros target preds live phis info original oin junk lt (Np & Ht & Nl & Hl & No & Hi & Hbb) Ior Hbot Hlbot.
  assert (Hb : forall i, ~ In (pseudo i) (map p_out phis)) by (intros i; apply Hbb).
  unfold unify_stacks_dominant. rewrite (generate_ok target preds live phis lt Ht Hl). cbn [bind].
  match goal with |- context [map_result _ ?a] => set (pf := a) end.
  match goal with |- context [unify_with _ ?b _ _ _ _ _ _] => set (names := b) end.
  destruct (forallb (fun va : string * string => negb (String.eqb (snd va) "bottom")) (inner pf original)) eqn:Fa; [|left; reflexivity].
  right. cbn [py_assert bind].
  assert (Nout : NoDup (map fst pf)).
  { unfold pf. apply put_rows_outer. rewrite phi_of_functions_rows. apply put_rows_outer. constructor. }
  assert (Nd : forall p, NoDup (map fst (inner pf p))).
  { intros p. unfold pf. apply put_rows_NoDup. rewrite phi_of_functions_rows. apply put_rows_NoDup. constructor. }
  assert (Dom : forall u p a, lookup u (inner pf p) = Some a -> exists b, lookup u (inner pf original) = Some b).
  { intros u p a Lu. destruct (in_dec string_dec u names) as [In_|Nn].
    - apply in_names in In_ as (i & -> & Li). eexists. apply (pf_pseudo preds live phis lt Np original i Ior Li).
    - unfold pf in Lu. rewrite (pf_real preds live phis lt Np p u Nn) in Lu. apply (pf0_arg preds phis Np No) in Lu as (f & If & <- & A).
      destruct (phi_total preds phis Np Hi f original If Ior) as (b & B). exists b. unfold pf. rewrite (pf_real preds live phis lt Np original _ Nn).
      apply (pf0_arg preds phis Np No). eauto. }
  match goal with |- context [do pf' <- map_result ?g pf; _] => set (step := g) end.
  destruct (map_result_exists step pf) as (pf' & Epf).
  { intros [b d] Ibd. unfold step. cbn [fst snd]. destruct (String.eqb_spec b original) as [->|Nb]; [eauto|].
    match goal with |- context [map_result ?h d] => destruct (map_result_exists h d) as (d' & Ed) end; [|rewrite Ed; cbn [bind]; eauto].
    intros [v a] Iva. cbn [fst snd]. destruct (String.eqb_spec a "bottom") as [->|Na]; [|cbn [of_option bind]; eauto].
    assert (inner pf b = d) as Hd by (unfold inner; now rewrite (lookup_NoDup _ _ _ Nout Ibd)).
    assert (lookup v (inner pf b) = Some "bottom") as Lv by (apply lookup_NoDup; [apply Nd|now rewrite Hd]).
    destruct (Dom v b _ Lv) as (c & ->). cbn [of_option bind]. eauto. }
  rewrite Epf. cbn [bind]. unfold live_of. rewrite Ht. cbn [of_option bind].
  destruct (map_result_dict step) with (d := pf) (d' := pf') as (_ & Hpf); [|exact Epf|].
  { intros [b d] r. unfold step. cbn [fst snd]. destruct (String.eqb b original); [intros H; injection H as <-; reflexivity|].
    destruct (map_result _ d); cbn [bind]; [|discriminate]. intros H; injection H as <-. reflexivity. }
  assert (Ho : inner pf' original = inner pf original).
  { unfold inner. specialize (Hpf original). destruct (lookup original pf) as [d|] eqn:L.
    - destruct Hpf as (b & S1 & ->). unfold step in S1. cbn [fst snd] in S1. rewrite String.eqb_refl in S1. injection S1 as <-. reflexivity.
    - now rewrite Hpf. }
  assert (Hn : forall p u, p <> original -> lookup u (inner pf' p) = match lookup u (inner pf p) with
             | Some a => if String.eqb a "bottom" then lookup u (inner pf original) else Some a | None => None end).
  { intros p u Hp. pose proof (Hpf p) as H. unfold inner at 1 2. destruct (lookup p pf) as [d|] eqn:L; [|now rewrite H].
    destruct H as (b & S1 & ->). unfold step in S1. cbn [fst snd] in S1. destruct (String.eqb_spec p original) as [|_]; [contradiction|].
    match type of S1 with (do d <- map_result ?h d; _) = _ => destruct (map_result h d) as [d'|] eqn:Ed; [|discriminate S1];
      destruct (map_result_dict h) with (d := d) (d' := d') as (_ & Hd) end; [|exact Ed|].
    { intros [v a] r. cbn [fst snd]. destruct (of_option _); cbn [bind]; [|discriminate]. intros H; injection H as <-. reflexivity. }
    cbn [bind] in S1. injection S1 as <-. specialize (Hd u). destruct (lookup u d) as [a|] eqn:Lu; [|exact Hd].
    destruct Hd as (b & S2 & ->). cbn [fst snd] in S2. destruct (String.eqb a "bottom").
    - destruct (lookup u (inner pf original)); cbn [of_option bind] in S2; [injection S2 as <-; reflexivity|discriminate].
    - cbn [of_option bind] in S2. injection S2 as <-. reflexivity. }
  match goal with |- context [Ok (_, ?vs)] => set (values := vs) end.
  assert (Hv1 : forall p u, p <> original -> lookup u (inner pf p) = Some "bottom" -> In (subst_of pf original u) values).
  { intros p u Hp Lu. destruct (Dom u p _ Lu) as (c & Ec). unfold subst_of. rewrite Ec. unfold values.
    unfold inner in Lu. destruct (lookup p pf) as [d|] eqn:L; [|discriminate Lu]. apply lookup_In in L. apply lookup_In in Lu.
    apply in_flat_map. exists (p, d). split; [exact L|]. cbn [fst snd]. destruct (String.eqb_spec p original) as [|_]; [contradiction|].
    apply in_flat_map. exists (u, "bottom"). split; [exact Lu|]. cbn [fst snd]. rewrite String.eqb_refl, Ec. now left. }
  assert (Bn : forall p u, lookup u (inner pf p) = Some "bottom" -> In u names).
  { intros p u Lu. destruct (in_dec string_dec u names) as [|Nn]; [assumption|]. exfalso.
    unfold pf in Lu. rewrite (pf_real preds live phis lt Np p u Nn) in Lu. apply (pf0_arg preds phis Np No) in Lu as (f & If & _ & (k & _ & A)).
    apply (Hbot f If). eapply nth_error_In; eauto. }
  assert (Hv2 : forall a, In a values -> exists u, In u names /\ lookup u (inner pf original) = Some a).
  { intros a Ia. unfold values in Ia. apply in_flat_map in Ia as ([b d] & Ib & Ia). cbn [fst snd] in Ia.
    destruct (String.eqb b original); [destruct Ia|]. apply in_flat_map in Ia as ([u c] & Iu & Ia). cbn [fst snd] in Ia.
    destruct (String.eqb_spec c "bottom") as [->|]; [|destruct Ia]. destruct (lookup u (inner pf original)) as [w|] eqn:L; [|destruct Ia].
    destruct Ia as [<-|[]]. exists u. split; [|exact L]. apply (Bn b). apply lookup_NoDup; [apply Nd|]. unfold inner. now rewrite (lookup_NoDup _ _ _ Nout Ib). }
  clearbody values.
  assert (Nd' : NoDup (map fst (inner pf' original))) by (rewrite Ho; apply Nd).
  destruct (unify_with_spec pf' names preds lt info original oin junk Nl (pseudo_NoDup _ _) Nd') as (combined & stacks & E & Nc & Ic & Hs).
  rewrite E. cbn [bind]. destruct (Hs original Ior) as (orest & Lo & _). exists combined, stacks, values. eexists. split; [reflexivity|]. split; [exact Nc|].
  split; [intros x Ix; apply Ic; now left|]. split; [exact Lo|].
  assert (So : forall u, subst_of pf' original u = subst_of pf original u) by (intros u; unfold subst_of; now rewrite Ho).
  split.
  { intros a Ia. rewrite firstn_app, map_length, Nat.sub_diag. cbn [firstn]. rewrite app_nil_r, firstn_all2 by (rewrite map_length; lia).
    destruct (Hv2 a Ia) as (u & Iu & Lu). apply in_map_iff. exists u. split; [|apply Ic; now right]. rewrite So. unfold subst_of. now rewrite Lu. }
  intros p lp Ip Lp. destruct (Hs p Ip) as (rest & L & R1 & R2 & R3).
  exists (map (subst_of pf' p) combined), rest. split; [exact L|].
  assert (Sn : forall u a, lookup u (inner pf p) = Some a -> a <> "bottom" -> subst_of pf' p u = a).
  { intros u a Lu Ha. unfold subst_of. destruct (string_dec p original) as [->|Hp]; [now rewrite Ho, Lu|]. rewrite (Hn p u Hp), Lu.
    destruct (String.eqb_spec a "bottom"); [contradiction|reflexivity]. }
  assert (Out : forall f, In f phis -> exists a, phi_arg preds f p a /\ subst_of pf' p (p_out f) = a).
  { intros f If. pose proof (out_not_name preds live phis lt Hb _ (in_map _ _ _ If)) as Nv.
    destruct (phi_total preds phis Np Hi f p If Ip) as (a & A). exists a. split; [exact A|]. apply Sn.
    - unfold pf. rewrite (pf_real preds live phis lt Np p _ Nv). apply (pf0_arg preds phis Np No). eauto.
    - intros ->. apply (Hbot f If). destruct A as (k & _ & A). eapply nth_error_In; eauto. }
  assert (Nout' : forall q v, ~ In v (map p_out phis) -> ~ In v names -> lookup v (inner pf q) = None).
  { intros q v Hv Nv. unfold pf. rewrite (pf_real preds live phis lt Np q _ Nv).
    destruct (lookup v (inner (phi_of_functions preds phis) q)) as [a|] eqn:Ea; [|reflexivity].
    apply (pf0_arg preds phis Np No) in Ea as (f & If & <- & _). exfalso. apply Hv. now apply in_map. }
  assert (NotOut : forall v, ~ In v (map p_out phis) -> ~ In v names -> subst_of pf' p v = v).
  { intros v Hv Nv. unfold subst_of. destruct (string_dec p original) as [->|Hp]; [now rewrite Ho, Nout'|]. rewrite (Hn p v Hp), Nout'; auto. }
  split; [|split; [|split]].
  - apply Forall2_map_self. intros v Iv. unfold matching. destruct (in_dec string_dec v (map p_out phis)) as [Hv|Hv]; [left|right].
    + apply in_map_iff in Hv as (f & <- & If). destruct (Out f If) as (a & A & Ea). exists f. rewrite Ea. auto.
    + apply Ic in Iv. destruct (in_dec string_dec v lt) as [Il|Nl']; [left|right].
      * split; [exact Hv|split; [exact Il|]]. apply NotOut; [exact Hv|]. intros In_. apply in_names in In_ as (i & -> & _). exact (proj2 (Hbb i) Il).
      * split; [exact Hv|split; [exact Nl'|]]. destruct Iv as [Iv|Iv]; [contradiction|]. apply in_names in Iv as (i & -> & Li).
        pose proof (pf_pseudo preds live phis lt Np p i Ip Li) as Lu. change (lookup (pseudo i) (inner pf p) = Some (nth i (variables_to_remove (phi_of_functions preds phis) lt match lookup p live with Some l => l | None => [] end p) "bottom")) in Lu.
        destruct (Nat.lt_ge_cases i (length (variables_to_remove (phi_of_functions preds phis) lt match lookup p live with Some l => l | None => [] end p))) as [Lt|Ge].
        -- right. pose proof (nth_In _ "bottom" Lt) as M. apply (rem_In preds live phis lt Np No p lp _ Lp) in M.
           rewrite (Sn _ _ Lu); [tauto|]. intros Eb. apply (Hlbot p lp Ip Lp). rewrite Eb in M. tauto.
        -- left. rewrite (nth_overflow _ _ Ge) in Lu. destruct (string_dec p original) as [->|Hp].
           { exfalso. rewrite forallb_forall in Fa. apply lookup_In in Lu. specialize (Fa _ Lu). cbn [snd] in Fa. rewrite String.eqb_refl in Fa. discriminate. }
           split; [exact Hp|]. specialize (Hv1 p _ Hp Lu). destruct (Dom _ p _ Lu) as (c & Ec). unfold subst_of in *. rewrite Ec in Hv1. rewrite (Hn p _ Hp), Lu, String.eqb_refl, Ec. exact Hv1.
  - intros [Hp|Hj]; auto.
  - intros Ep H. apply R3; [exact Ep|]. intros x Ix. destruct (H x Ix) as (H1 & H2). rewrite Ho. apply Nout'; [exact H1|].
    intros I. apply in_names in I as (i & -> & _). exact (H2 i eq_refl).
  - intros Inc x Ix Hx. destruct (in_dec string_dec x lt) as [Il|Nl'].
    + apply in_map_iff. exists x. split; [|apply Ic; now left]. apply NotOut; [exact Hx|]. intros I. apply in_names in I as (i & -> & _). exact (proj2 (Hbb i) Il).
    + destruct (in_dec string_dec x (map snd (inner (phi_of_functions preds phis) p))) as [Iv|Nv].
      * apply (pf0_values preds phis Np No) in Iv as (f & If & A). apply in_map_iff. exists (p_out f). split; [|apply Ic; left; apply Inc; now apply in_map].
        apply Sn.
        -- unfold pf. rewrite (pf_real preds live phis lt Np p _ (out_not_name preds live phis lt Hb _ (in_map _ _ _ If))). apply (pf0_arg preds phis Np No). eauto.
        -- intros ->. exact (Hlbot p lp Ip Lp Ix).
      * rewrite (pf0_values preds phis Np No) in Nv.
        assert (M := proj2 (rem_In preds live phis lt Np No p lp x Lp) (conj Ix (conj Nl' Nv))).
        apply (In_nth _ _ "bottom") in M as (i & Li & Ei). pose proof (rem_bound preds live phis lt p Ip) as B.
        apply in_map_iff. exists (pseudo i). split.
        -- apply Sn; [|intros ->; exact (Hlbot p lp Ip Lp Ix)]. unfold pf. rewrite (pf_pseudo preds live phis lt Np p i Ip) by lia. now rewrite Ei.
        -- apply Ic. right. apply (in_names preds live phis lt). exists i. split; [reflexivity|lia].
Qed.
Print Assumptions dominant_layouts_agree.

Example dominant_example :
  unify_stacks_dominant "T" ["P"; "Q"] ex_live ex_phis [] "P" ["c"; "y"; "z"] true
    = Ok (["b0"; "y"; "x"], [("P", ["c"; "y"; "a"]); ("Q", ["c"; "y"; "b"])], ["c"])
  /\ unify_stacks_dominant "T" ["P"; "Q"] ex_live ex_phis [] "Q" ["b"; "y"] true = Raise AssertionError.
Proof. split; vm_compute; reflexivity. Qed.
