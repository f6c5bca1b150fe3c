(** C42: which blocks keep additional values on the stack. *)
From Coq Require Import Lia.
From Verif Require Import Base UtilModel LiveModel CfgModel LayoutModel UnifyModel UnifyProps LayoutGenModel LayoutGenSpec LayoutGenProofs LayoutGenTotal LayoutGenProps.
Open Scope string_scope. Open Scope list_scope.

(** The blocks from which [last] is reached without passing [first]. *)
Inductive between (env : layout_env) (first last : string) : string -> Prop :=
| between_last : last <> first -> between env first last last
| between_pred x p : between env first last x -> In p (le_preds env x) -> p <> first -> between env first last p.

(** [l'] has the additional values [vals] besides those of [l], and nothing else is different. *)
Definition gains (vals : list string) (l l' : live_info) : Prop :=
  lv_in l' = lv_in l /\ lv_out l' = lv_out l
  /\ (forall v, In v (lv_in_extra l') <-> In v (lv_in_extra l) \/ In v vals)
  /\ (forall v, In v (lv_out_extra l') <-> In v (lv_out_extra l) \/ In v vals).

(** Exactly these blocks have the values. *)
Definition spread (env : layout_env) (first last : string) (vals : list string) (lv lv' : lives) : Prop :=
  forall x l, lookup x lv = Some l -> exists l', lookup x lv' = Some l'
    /\ (between env first last x -> gains vals l l') /\ (~ between env first last x -> l' = l).

Lemma propagate_spread env first last vals lv0 : forall fuel stack tr lv lv',
  (forall x, In x tr -> between env first last x) ->
  (forall x, In x stack -> x = first \/ between env first last x) ->
  (last = first \/ In last tr \/ In last stack) ->
  (forall x p, In x tr -> In p (le_preds env x) -> p = first \/ In p tr \/ In p stack) ->
  (forall x l, lookup x lv0 = Some l -> exists l', lookup x lv = Some l' /\ (In x tr -> gains vals l l') /\ (~ In x tr -> l' = l)) ->
  propagate_loop fuel env first vals stack tr lv = Ok lv' -> spread env first last vals lv0 lv'.
Proof.
  induction fuel as [|fuel IH]; intros stack tr lv lv' T S L C V H; cbn [propagate_loop] in H.
  - destruct (rev stack) eqn:R; [|discriminate]. injection H as <-.
    assert (stack = []) as -> by (rewrite <- (rev_involutive stack), R; reflexivity).
    intros x l Lx. destruct (V x l Lx) as (l' & Lx' & G1 & G2). exists l'. split; [exact Lx'|]. split; [|intros N; apply G2; auto].
    intros B. apply G1. clear - B L C. induction B as [N|x p B IB P N]; [destruct L as [L|[L|[]]]; [contradiction|exact L]|].
    destruct (C x p IB P) as [->|[?|[]]]; [contradiction|assumption].
  - destruct (rev stack) as [|b rest] eqn:R.
    + injection H as <-. assert (stack = []) as -> by (rewrite <- (rev_involutive stack), R; reflexivity).
      intros x l Lx. destruct (V x l Lx) as (l' & Lx' & G1 & G2). exists l'. split; [exact Lx'|]. split; [|intros N; apply G2; auto].
      intros B. apply G1. clear - B L C. induction B as [N|x p B IB P N]; [destruct L as [L|[L|[]]]; [contradiction|exact L]|].
      destruct (C x p IB P) as [->|[?|[]]]; [contradiction|assumption].
    + assert (Es : stack = rev rest ++ [b]) by (rewrite <- (rev_involutive stack), R; reflexivity). subst stack. clear R.
      assert (Sb : b = first \/ between env first last b) by (apply S; apply in_app_iff; right; now left).
      assert (S' : forall x, In x (rev rest) -> x = first \/ between env first last x) by (intros x I; apply S; apply in_app_iff; now left).
      destruct (mem b tr || String.eqb b first) eqn:D.
      * assert (D' : b = first \/ In b tr) by (apply orb_true_iff in D as [D|D]; [right; now apply mem_In|left; now apply String.eqb_eq]).
        eapply IH; [exact T|exact S'| | |exact V|exact H].
        -- destruct L as [L|[L|L]]; [auto|auto|]. apply in_app_iff in L as [L|[->|[]]]; [auto|]. destruct D' as [->|D']; auto.
        -- intros x p Ix P. destruct (C x p Ix P) as [E|[E|E]]; [auto|auto|]. apply in_app_iff in E as [E|[->|[]]]; [auto|]. destruct D' as [->|D']; auto.
      * apply orb_false_iff in D as (D1 & D2). apply mem_false in D1. apply String.eqb_neq in D2.
        destruct Sb as [Sb|Sb]; [contradiction|].
        destruct (lookup b lv) as [lb|] eqn:Lb; cbn [of_option bind] in H; [|discriminate].
        eapply IH; [| | | | |exact H].
        -- intros x [<-|I]; auto.
        -- intros x I. apply in_app_iff in I as [I|I]; [auto|]. destruct (String.eqb_spec x first) as [->|N]; [auto|right; eapply between_pred; eauto].
        -- destruct L as [L|[L|L]]; [auto|right; left; now right|]. apply in_app_iff in L as [L|[->|[]]]; [|right; left; now left].
           right. right. apply in_app_iff. now left.
        -- intros x p [<-|Ix] P; [right; right; apply in_app_iff; now right|]. destruct (C x p Ix P) as [E|[E|E]]; [auto|right; left; now right|].
           apply in_app_iff in E as [E|[->|[]]]; [right; right; apply in_app_iff; now left|right; left; now left].
        -- intros x l Lx. destruct (V x l Lx) as (l' & Lx' & G1 & G2). rewrite lookup_dict_set. destruct (String.eqb_spec b x) as [->|N].
           ++ rewrite Lx' in Lb. injection Lb as <-. eexists. split; [reflexivity|]. rewrite (G2 D1). split; [|intros K; exfalso; apply K; now left].
              intros _. unfold gains, extend_live. cbn. repeat split; intros K; try (apply in_union in K; exact K); apply in_union; exact K.
           ++ exists l'. split; [exact Lx'|]. split; [intros [->|I]; [contradiction|auto]|intros K; apply G2; intros I; apply K; now right].
Qed.

(** The values kept for the later of two predecessors are kept in exactly the
    blocks through which the control goes between both, and every block keeps
    what it had to keep before (src/liveness/layout_generation.py:299-336). *)
Theorem values_kept_between : forall env path first last out values lv lv' l,
  hd_error path = Some first -> hd_error (rev path) = Some last -> lookup last lv = Some l ->
  preserve_stack_dominant_path env path out values lv = Ok lv' ->
  exists vals, (forall v, In v vals <-> In v values \/ In v out /\ ~ In v (out_vars l)) /\ spread env first last vals lv lv'.
Proof.
  intros env path first last out values lv lv' l Hf Hl Ll H. unfold preserve_stack_dominant_path in H.
  rewrite Hl, Hf in H. cbn [of_option bind] in H. rewrite Ll in H. cbn [of_option bind] in H.
  set (junk := nodup string_dec (filter (fun v => negb (mem v (out_vars l))) out)) in *.
  exists (union (nodup string_dec values) junk). split.
  - intros v. rewrite in_union, nodup_In. unfold junk. rewrite nodup_In, filter_In. rewrite negb_true_iff. rewrite mem_false. tauto.
  - destruct (union (nodup string_dec values) junk) as [|w ws] eqn:U.
    + injection H as <-. intros x l0 Lx. exists l0. split; [exact Lx|]. split; [|reflexivity]. intros _. unfold gains. cbn. tauto.
    + eapply propagate_spread; [| | | | |exact H].
      * intros x [].
      * intros x [<-|[]]. destruct (String.eqb_spec last first) as [->|N]; [auto|right; now constructor].
      * right. right. now left.
      * intros x p [].
      * intros x l0 Lx. exists l0. split; [exact Lx|]. split; [intros []|reflexivity].
Qed.
Print Assumptions values_kept_between.
Example values_kept_example : exists lv', preserve_stack_dominant_path demo_env ["Start"; "Loop"; "Body"; "Next"] ["y"; "q"] ["w"] demo_live = Ok lv'
  /\ option_map in_vars (lookup "Start" lv') = Some [] /\ option_map in_vars (lookup "Body" lv') = Some ["x"; "k"; "w"; "q"]
  /\ option_map out_vars (lookup "Extra" lv') = Some ["z"; "k"; "w"; "q"] /\ option_map out_vars (lookup "Exit" lv') = Some [].
Proof. eexists. repeat split; reflexivity. Qed.
