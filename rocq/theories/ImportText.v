(** The text of the compiler is taken apart as it was put together (C57). *)
From Verif Require Import Base Lexical LexicalProofs SymExecModel AsmModel ImportModel ImportSpec.
Open Scope string_scope. Open Scope list_scope.

Lemma sapp_assoc (a b c : string) : ((a ++ b) ++ c = a ++ (b ++ c))%string.
Proof. induction a; cbn; [reflexivity|]. f_equal. assumption. Qed.
Lemma sapp_nil (a : string) : (a ++ "" = a)%string.
Proof. induction a; cbn; [reflexivity|]. f_equal. assumption. Qed.
Lemma sapp_length (a b : string) : String.length (a ++ b)%string = (String.length a + String.length b)%nat.
Proof. induction a; cbn; [reflexivity|]. f_equal. assumption. Qed.

(** No occurrence of [sub] begins in [a], whatever follows. *)
Definition clean (sub a : string) : Prop := forall p q t, a = (p ++ q)%string -> q <> ""%string -> prefix sub (q ++ t)%string = false.
Lemma clean_tail sub c a : clean sub (String c a) -> clean sub a.
Proof. intros H p q t E N. apply (H (String c p) q t); [cbn; f_equal; exact E|exact N]. Qed.
Lemma skip_app sub s1 : forall r, split_go sub (String.length s1) (s1 ++ r)%string = split_go sub 0 r.
Proof. induction s1 as [|c s1 IH]; intros r; [reflexivity|]. cbn. apply IH. Qed.
Lemma prefix_self sub r : prefix sub (sub ++ r)%string = true.
Proof. exact (startswith_app sub r). Qed.
Lemma split_first sub a r : sub <> ""%string -> clean sub a -> split_go sub 0 (a ++ sub ++ r)%string = (a, fst (split_go sub 0 r) :: snd (split_go sub 0 r)).
Proof.
  intros NE. induction a as [|c a IH]; intros C.
  - destruct sub as [|c sub]; [contradiction|]. cbn [append split_go]. pose proof (prefix_self (String c sub) r) as P. cbn [append] in P. rewrite P.
    cbn [String.length]. rewrite Nat.sub_succ, Nat.sub_0_r, skip_app. destruct (split_go (String c sub) 0 r). reflexivity.
  - cbn [append split_go]. pose proof (C "" (String c a) (sub ++ r)%string eq_refl ltac:(discriminate)) as P. cbn [append] in P. rewrite P.
    rewrite IH by (eapply clean_tail; eassumption). reflexivity.
Qed.
(** [sub] does not occur in [a]. *)
Definition free (sub a : string) : Prop := forall p q, a = (p ++ q)%string -> q <> ""%string -> prefix sub q = false.
Lemma split_none sub a : free sub a -> split_go sub 0 a = (a, []).
Proof.
  induction a as [|c a IH]; intros C; [reflexivity|]. cbn [split_go]. pose proof (C "" (String c a) eq_refl ltac:(discriminate)) as P. rewrite P.
  rewrite IH; [reflexivity|]. intros p q E N. apply (C (String c p) q); [cbn; f_equal; exact E|exact N].
Qed.
Lemma clean_free sub a : clean sub a -> free sub a.
Proof. intros C p q E N. rewrite <- (sapp_nil q). exact (C p q "" E N). Qed.
Lemma py_split_first sub a r : sub <> ""%string -> clean sub a -> py_split sub (a ++ sub ++ r)%string = a :: py_split sub r.
Proof. intros NE C. unfold py_split. rewrite split_first by assumption. destruct (split_go sub 0 r). reflexivity. Qed.
Lemma py_split_none sub a : free sub a -> py_split sub a = [a].
Proof. intros C. unfold py_split. rewrite split_none by assumption. reflexivity. Qed.
Lemma app_split (a b p q : string) : (a ++ b = p ++ q)%string -> (exists a2, a = p ++ a2 /\ q = a2 ++ b)%string \/ (exists b1, b = b1 ++ q /\ p = a ++ b1)%string.
Proof.
  revert p. induction a as [|c a IH]; intros p E; [right; exists p; auto|]. destruct p as [|c' p]; cbn in E.
  - left. exists (String c a). auto.
  - injection E as <- E. destruct (IH p E) as [(a2 & -> & ->)|(b1 & -> & ->)]; [left; exists a2|right; exists b1]; auto.
Qed.
Lemma clean_app sub a b : clean sub a -> clean sub b -> clean sub (a ++ b)%string.
Proof.
  intros Ca Cb p q t E N. apply app_split in E as [(a2 & -> & ->)|(b1 & -> & ->)].
  - destruct a2 as [|c a2]; [cbn; apply (Cb "" b t eq_refl); exact N|]. rewrite sapp_assoc. apply (Ca p (String c a2)); [reflexivity|discriminate].
  - apply (Cb b1 q t eq_refl N).
Qed.
Lemma clean_nil sub : clean sub "".
Proof. intros p q t E N. destruct p; [cbn in E; congruence|discriminate]. Qed.
Lemma clean_char sub c : (forall t, prefix sub (String c t) = false) -> clean sub (String c "").
Proof.
  intros H p q t E N. destruct p as [|c' p]; cbn in E; [subst q; apply H|]. injection E as _ E. destruct p; [cbn in E; congruence|discriminate].
Qed.

Definition spaceless (w : string) : Prop := forall c, In c (list_ascii_of_string w) -> is_space c = false.
Lemma spaceless_clean w : spaceless w -> clean " " w.
Proof.
  intros H p q t -> N. destruct q as [|c q]; [contradiction|]. cbn [append]. assert (S : is_space c = false).
  { apply H. rewrite list_ascii_app. apply in_app_iff. right. left. reflexivity. }
  unfold prefix. destruct (ascii_dec " " c) as [<-|]; [discriminate S|reflexivity].
Qed.
Lemma prefix_space sub : (forall c, In c (list_ascii_of_string sub) -> c <> " "%char) -> forall w t, prefix sub (w ++ String " " t)%string = true -> prefix sub w = true.
Proof.
  induction sub as [|c sub IH]; intros H w t E; [destruct w; reflexivity|]. destruct w as [|c' w]; cbn in E.
  - destruct (ascii_dec c " ") as [-> |]; [|discriminate]. exfalso. apply (H " "%char); [left; reflexivity|reflexivity].
  - cbn. destruct (ascii_dec c c'); [|discriminate]. apply (IH (fun x Hx => H x (or_intror Hx)) w t E).
Qed.
Lemma prefix_contains sub p q : prefix sub q = true -> contains sub (p ++ q)%string = true.
Proof.
  intros H. induction p as [|c p IH].
  - cbn. destruct q; cbn [contains]; rewrite H; reflexivity.
  - cbn [append contains]. rewrite IH. apply orb_true_r.
Qed.
Definition invalid := "INVALID"%string.
Lemma invalid_no_space c : In c (list_ascii_of_string invalid) -> c <> " "%char.
Proof. cbn. intros H E. subst c. repeat (destruct H as [H|H]; [discriminate|]). exact H. Qed.
Lemma word_clean w : contains invalid w = false -> clean invalid (w ++ " ")%string.
Proof.
  intros N p q t E NE. apply app_split in E as [(w2 & -> & ->)|(b1 & E & ->)].
  - destruct (prefix invalid ((w2 ++ " ") ++ t)) eqn:P; [|reflexivity]. exfalso. rewrite sapp_assoc in P. cbn [append] in P.
    apply (prefix_space invalid invalid_no_space w2 t) in P. apply (prefix_contains invalid p) in P. congruence.
  - destruct b1 as [|c b1]; cbn in E; [subst q; reflexivity|]. injection E as _ E. destruct b1; [cbn in E; congruence|discriminate].
Qed.
Lemma joined_clean p : Forall good_word p -> clean invalid (String.concat " " p ++ " ")%string.
Proof.
  induction 1 as [|w p (_ & _ & G) _ IH]; [apply clean_char; reflexivity|]. destruct p as [|w' p]; [apply word_clean; exact G|].
  change (String.concat " " (w :: w' :: p)) with (w ++ " " ++ String.concat " " (w' :: p))%string.
  replace ((w ++ " " ++ String.concat " " (w' :: p)) ++ " ")%string with ((w ++ " ") ++ (String.concat " " (w' :: p) ++ " "))%string by (rewrite !sapp_assoc; reflexivity).
  apply clean_app; [apply word_clean; exact G|exact IH].
Qed.
Lemma prefix_more sub q t : prefix sub q = true -> prefix sub (q ++ t)%string = true.
Proof.
  revert q. induction sub as [|c sub IH]; intros q H; [destruct (q ++ t)%string; reflexivity|]. destruct q as [|c' q]; [discriminate|]. cbn in *. destruct (ascii_dec c c'); [auto|discriminate].
Qed.
Lemma clean_front sub a b : clean sub (a ++ b)%string -> free sub a.
Proof.
  intros C p q E N. destruct (prefix sub q) eqn:P; [|reflexivity]. rewrite <- (C p (q ++ b)%string "").
  - symmetry. apply prefix_more, prefix_more. exact P.
  - rewrite E, sapp_assoc. reflexivity.
  - destruct q; [contradiction|discriminate].
Qed.

(** Words joined with spaces are separated again. *)
Lemma split_words p : p <> [] -> Forall good_word p -> py_split " " (String.concat " " p) = p.
Proof.
  intros NE F. induction F as [|w p (_ & S & _) F IH]; [contradiction|]. destruct p as [|w' p].
  - cbn [String.concat]. apply py_split_none, clean_free, spaceless_clean. exact S.
  - change (String.concat " " (w :: w' :: p)) with (w ++ " " ++ String.concat " " (w' :: p))%string.
    rewrite py_split_first; [f_equal; apply IH; discriminate|discriminate|apply spaceless_clean; exact S].
Qed.

(** ** White space around a part *)
Definition spaces (s : string) : Prop := forall c, In c (list_ascii_of_string s) -> is_space c = true.
Lemma lstrip_spaces sp l : (forall c, In c sp -> is_space c = true) -> lstrip (sp ++ l) = lstrip l.
Proof. induction sp as [|c sp IH]; intros H; [reflexivity|]. cbn. rewrite (H c (or_introl eq_refl)). apply IH. intros x Hx. apply H. right. exact Hx. Qed.
Lemma strip_around sp l sp' : (forall c, In c sp -> is_space c = true) -> (forall c, In c sp' -> is_space c = true) ->
  (exists c l', l = c :: l' /\ is_space c = false) -> (exists c l', l = l' ++ [c] /\ is_space c = false) -> strip (sp ++ l ++ sp') = l.
Proof.
  intros H1 H2 (c & l' & E & S) (d & l'' & E' & S'). unfold strip. rewrite lstrip_spaces by exact H1.
  assert (Q : lstrip (l ++ sp') = l ++ sp') by (rewrite E; cbn; rewrite S; reflexivity). rewrite Q, rev_app_distr, lstrip_spaces.
  - rewrite E', rev_app_distr. cbn [rev app lstrip]. rewrite S'. cbn [rev]. rewrite rev_involutive. reflexivity.
  - intros x Hx. apply in_rev in Hx. auto.
Qed.
Lemma word_first w : good_word w -> exists c l, list_ascii_of_string w = c :: l /\ is_space c = false.
Proof. intros (N & S & _). destruct w as [|c w]; [contradiction|]. exists c, (list_ascii_of_string w). split; [reflexivity|]. apply S. left. reflexivity. Qed.
Lemma word_last w : good_word w -> exists c l, list_ascii_of_string w = l ++ [c] /\ is_space c = false.
Proof.
  intros (N & S & _). destruct (list_ascii_of_string w) as [|c l] eqn:E; [destruct w; [contradiction|discriminate]|].
  destruct (@exists_last _ (c :: l)) as (l' & d & Q); [discriminate|]. exists d, l'. split; [exact Q|]. apply S. rewrite Q. apply in_app_iff. right. left. reflexivity.
Qed.
Lemma joined_ends p : p <> [] -> Forall good_word p -> let l := list_ascii_of_string (String.concat " " p) in
  (exists c l', l = c :: l' /\ is_space c = false) /\ (exists c l', l = l' ++ [c] /\ is_space c = false).
Proof.
  intros NE F. induction F as [|w p G F IH]; [contradiction|]. destruct p as [|w' p].
  - cbn [String.concat]. split; [apply word_first|apply word_last]; exact G.
  - change (String.concat " " (w :: w' :: p)) with (w ++ " " ++ String.concat " " (w' :: p))%string. cbv zeta. rewrite !list_ascii_app. destruct (IH ltac:(discriminate)) as [_ (c & l' & E & S)]. split.
    + destruct (word_first w G) as (d & l & -> & Sd). cbn. eauto.
    + rewrite E. exists c, (list_ascii_of_string w ++ list_ascii_of_string " " ++ l'). rewrite <- !app_assoc. auto.
Qed.
Lemma part_words sp sp' p : spaces sp -> spaces sp' -> p <> [] -> Forall good_word p -> py_split " " (py_strip (sp ++ String.concat " " p ++ sp')) = p.
Proof.
  intros H1 H2 NE F. unfold py_strip. rewrite !list_ascii_app. destruct (joined_ends p NE F) as [A B]. rewrite strip_around by assumption.
  rewrite string_of_list_ascii_of_string. apply split_words; assumption.
Qed.
Lemma spaces_one : spaces " ". Proof. intros c [<-|[]]. reflexivity. Qed.
Lemma spaces_none : spaces "". Proof. intros c []. Qed.
Lemma lead_clean lead p : spaces lead -> (lead = "" \/ lead = " ")%string -> Forall good_word p -> clean invalid (lead ++ String.concat " " p ++ " ")%string.
Proof.
  intros _ D F. apply clean_app; [|apply joined_clean; exact F]. destruct D as [-> | ->]; [apply clean_nil|apply clean_char; reflexivity].
Qed.
Lemma parts_found parts : parts <> [] -> Forall (fun p => p <> [] /\ Forall good_word p) parts -> forall lead, (lead = "" \/ lead = " ")%string ->
  map (fun chunk => py_split " " (py_strip chunk)) (py_split invalid (lead ++ text_of parts)) = parts.
Proof.
  intros NE F. induction F as [|p parts [Np G] F IH]; [contradiction|]. intros lead D.
  assert (SL : spaces lead) by (destruct D as [-> | ->]; [exact spaces_none|exact spaces_one]).
  pose proof (lead_clean lead p SL D G) as C.
  destruct parts as [|p' parts].
  - cbn [text_of]. rewrite py_split_none.
    + cbn [map]. f_equal. rewrite <- (sapp_nil (String.concat " " p)). apply part_words; auto. exact spaces_none.
    + rewrite <- sapp_assoc in C. exact (clean_front _ _ _ C).
  - change (text_of (p :: p' :: parts)) with (String.concat " " p ++ " INVALID " ++ text_of (p' :: parts))%string.
    replace (lead ++ String.concat " " p ++ " INVALID " ++ text_of (p' :: parts))%string
      with ((lead ++ String.concat " " p ++ " ") ++ invalid ++ (" " ++ text_of (p' :: parts)))%string by (rewrite !sapp_assoc; reflexivity).
    rewrite py_split_first by (discriminate || exact C). cbn [map]. f_equal.
    + apply part_words; auto. exact spaces_one.
    + apply IH; [discriminate|right; reflexivity].
Qed.
