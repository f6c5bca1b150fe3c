(** Instances of the theorems on registers and counterexamples to the properties
    the code does not have. *)
From Verif Require Import Base Lexical SymExecModel AsmModel DepsModel SpecModel UtilModel WebModel WebProps RegModel RegSpec RegProps.
Open Scope string_scope. Open Scope list_scope.

Definition blk (name : string) (phis : list (string * list string)) (entries succs ids copies solve : list string) : rblock :=
  {| rb_name := name; rb_phis := phis; rb_entries := entries; rb_succs := succs; rb_ids := ids; rb_copies := copies; rb_solve := solve;
     rb_reach := []; rb_last := no_uses |}.

(** Paths, blocks and accesses, enumerated. *)
Fixpoint paths (t : dtree) : list (list rblock) :=
  match t with DNode b ch => [b] :: map (cons b) (concat (map paths ch)) end.
Fixpoint tree_blocks (t : dtree) : list rblock := match t with DNode b ch => b :: concat (map tree_blocks ch) end.
Lemma tree_path_In t : forall p, tree_path t p -> In p (paths t).
Proof.
  induction t as [b ch IH] using dtree_rect'. intros p H. cbn. inversion H as [|? ? t p' It Tp]; subst; [auto|]. right. apply in_map.
  apply in_concat. exists (paths t). split; [apply in_map; exact It|]. exact (proj1 (Forall_forall _ _) IH t It p' Tp).
Qed.
Lemma in_tree_In t : forall b, in_tree b t <-> In b (tree_blocks t).
Proof.
  induction t as [b0 ch IH] using dtree_rect'. intros b. cbn. split.
  - intros H. inversion H as [|? ? ? t It Tp]; subst; [auto|]. right. apply in_concat. exists (tree_blocks t). split; [apply in_map; exact It|].
    apply (proj1 (Forall_forall _ _) IH t It b). exact Tp.
  - intros [<-|H]; [constructor|]. apply in_concat in H as (l & I1 & I2). apply in_map_iff in I1 as (t & <- & It). econstructor; [exact It|].
    apply (proj1 (Forall_forall _ _) IH t It b). exact I2.
Qed.
Definition block_acc (b : rblock) : list access :=
  map Store (phi_defs (rb_solve b) (rb_phis b)) ++ flat_map acc_id (rb_ids b) ++ map Load (rb_copies b).
Lemma blocks_access_eq p l : blocks_access p l -> l = flat_map block_acc p.
Proof. intros H. induction H as [|b bs l l' B H IH]; [reflexivity|]. cbn. rewrite <- IH. apply block_access_eq in B. subst l. reflexivity. Qed.
Lemma paths_defined t : Forall (fun p => defined_before [] (flat_map block_acc p)) (paths t) ->
  forall p l, tree_path t p -> blocks_access p l -> defined_before [] l.
Proof. intros H p l Tp Ba. apply blocks_access_eq in Ba. subst l. exact (proj1 (Forall_forall _ _) H p (tree_path_In t p Tp)). Qed.
Lemma blocks_forall t (P : rblock -> Prop) : Forall P (tree_blocks t) -> forall b, in_tree b t -> P b.
Proof. intros H b I. apply in_tree_In in I. exact (proj1 (Forall_forall _ _) H b I). Qed.
Ltac ids := match goal with |- ids_access ?i _ => let i' := eval vm_compute in i in change i with i' end; repeat (first
  [ apply ia_nil
  | match goal with |- ids_access (?id :: _) _ =>
      let v := eval vm_compute in (extract_value id) in
      match v with
      | Some ?x => first [ apply (ia_get x) | apply (ia_set x) | apply (ia_dup x "0"); [reflexivity|reflexivity|] | apply (ia_dup x "1"); [reflexivity|reflexivity|] ]
      | None => apply ia_other; [reflexivity|reflexivity|]
      end end ]).
Ltac blockac := eexists; split; [ids|reflexivity].
Ltac nodup := repeat constructor; cbn; intuition discriminate.

Definition webs_of (phis : list (string * list string)) : webs := match join_all phis with Ok w => w | Raise _ => empty_webs end.

(** A loop whose counter [i] lives in a register, and a value [a] used after it. *)
Definition l_entry := blk "E" [] [] ["H"] ["DUP-VSET(a,0)"; "ADD"; "DUP-VSET(i0,1)"] ["i0"] [].
Definition l_head := blk "H" [("i", ["i0"; "i1"])] ["E"; "B"] ["B"; "X"] ["VGET(i)"; "LT"] [] ["i"].
Definition l_body := blk "B" [] [] ["H"] ["VGET(i)"; "VSET(i1)"] ["i1"] [].
Definition l_exit := blk "X" [] [] [] ["VGET(a)"; "VSET(c)"; "VGET(c)"] [] [].
Definition l_tree := DNode l_entry [DNode l_head [DNode l_body []; DNode l_exit []]].
Definition l_webs := webs_of [("i", ["i0"; "i1"])].


Example l_colours : option_map k_color (match tree_scan (fst (mark_tree l_tree)) l_webs 6 with Ok k => Some k | Raise _ => None end)
  = Some [("a", 0); ("i0", 1); ("i", 2); ("i1", 3); ("c", 0)].
Proof. vm_compute. reflexivity. Qed.
(** The hypotheses of [tree_scan_loads_right_partial] hold of it; [a] and [c]
    share register 0, one after the other. *)
Example l_stores : tree_stores l_tree ["a"; "i0"; "i"; "i1"; "c"].
Proof.
  apply (ts_node l_entry _ [Store "a"; Store "i0"; Load "i0"] ["i"; "i1"; "c"]); [blockac|].
  apply (ts_cons _ _ ["i"; "i1"; "c"] []); [|constructor].
  apply (ts_node l_head _ [Store "i"; Load "i"] ["i1"; "c"]); [blockac|].
  apply (ts_cons _ _ ["i1"] ["c"]); [apply (ts_node l_body _ [Load "i"; Store "i1"; Load "i1"] []); [blockac|constructor]|].
  apply (ts_cons _ _ ["c"] []); [|constructor]. apply (ts_node l_exit _ [Load "a"; Store "c"; Load "c"] []); [blockac|constructor].
Qed.
Example l_right : forall k V (val : string -> V) p l, tree_scan (fst (mark_tree l_tree)) l_webs 6 = Ok k ->
  tree_path l_tree p -> blocks_access p l -> loads_right (fun x => lookup x (k_color k)) val (fun _ => None) l.
Proof.
  intros k V val p l H. eapply (tree_scan_loads_right_partial l_tree [("i", ["i0"; "i1"])] l_webs 6 k).
  - apply blocks_forall. repeat constructor; cbn; intuition discriminate.
  - reflexivity.
  - intros b d args Ib. apply in_tree_In in Ib. cbn in Ib.
    destruct Ib as [<-|[<-|[<-|[<-|[]]]]]; cbn; intuition congruence.
  - exact l_stores.
  - nodup.
  - apply paths_defined. repeat constructor; cbn; tauto.
  - exact H.
Qed.
Example l_num : forall k, tree_scan (fst (mark_tree l_tree)) l_webs 6 = Ok k -> num_regs k = 4.
Proof. intros k H. vm_compute in H. injection H as <-. reflexivity. Qed.

(* ------------------------------------------------------------------ *)
(** ** Executions are not paths of the dominator tree *)

(** In all the examples the ids are those of a block list whose loads come after
    a store in every execution. *)
Lemma exec_entry blocks entry w : exec blocks entry w -> In entry w.
Proof. intros H. induction H as [|b b' w H IH]; [left; reflexivity|]. right. exact IH. Qed.

(** A branch: [T] uses [a] for the last time in its part of the dominator tree
    and stores [b] in the same register; the join [J], which is not below [T] in
    the tree, then loads [b] for [a]. *)
Definition j_top := blk "D" [] [] ["T"; "J"] ["VSET(a)"] [] [].
Definition j_then := blk "T" [] [] ["J"] ["VGET(a)"; "VSET(b)"; "VGET(b)"] [] [].
Definition j_join := blk "J" [] [] [] ["VGET(a)"] [] [].
Definition j_blocks := [("D", j_top); ("T", j_then); ("J", j_join)].
Definition j_tree := DNode j_top [DNode j_then []; DNode j_join []].

Ltac exec_cases H := inversion H; subst; clear H.
Lemma j_dominators : dominator_tree j_blocks j_top j_tree.
Proof.
  split; [reflexivity|]. split.
  - intros b. rewrite in_tree_In. cbn. split.
    + intros [<-|[<-|[<-|[]]]]; cbn; auto.
    + intros [E|[E|[E|[]]]]; injection E as _ <-; auto.
  - intros p c P. inversion P as [? ? t It|? ? ? ? t It P']; subst; cbn in It.
    + destruct It as [<-|[<-|[]]]; cbn; (split; [discriminate|]); (split; [intros w H; exact (exec_entry _ _ _ H)|]).
      * intros q Q N w H. assert (E : exec j_blocks j_top [j_then; j_top]) by (econstructor; [constructor|cbn; auto|cbn; auto]).
        destruct (Q _ E) as [X|[X|[]]]; [congruence|]. subst q. left. reflexivity.
      * intros q Q N w H. assert (E : exec j_blocks j_top [j_join; j_top]) by (econstructor; [constructor|cbn; auto|cbn; auto]).
        destruct (Q _ E) as [X|[X|[]]]; [congruence|]. subst q. left. reflexivity.
    + destruct It as [<-|[<-|[]]]; inversion P'; subst; match goal with H : In _ [] |- _ => destruct H end.
Qed.

Theorem tree_scan_join_refuted : exists blocks entry t w n k e l,
  dominator_tree blocks entry t /\ join_all [] = Ok w /\
  (forall b, in_tree b t -> rb_last b = no_uses /\ NoDup (rb_copies b) /\ rb_phis b = []) /\
  tree_stores t ["a"; "b"] /\ (forall p l, tree_path t p -> blocks_access p l -> defined_before [] l) /\
  tree_scan (fst (mark_tree t)) w n = Ok k /\
  exec blocks entry e /\ blocks_access (rev e) l /\ defined_before [] l /\ NoDup (rev e) /\
  ~ loads_right (fun x => lookup x (k_color k)) (fun x => x) (fun _ => None) l.
Proof.
  exists j_blocks, j_top, j_tree, empty_webs, 2. eexists. exists [j_join; j_then; j_top]. eexists.
  split; [exact j_dominators|]. split; [reflexivity|].
  split; [apply blocks_forall; repeat constructor; cbn; intuition discriminate|].
  split. { apply (ts_node j_top _ [Store "a"] ["b"]); [blockac|]. apply (ts_cons _ _ ["b"] []); [apply (ts_node j_then _ [Load "a"; Store "b"; Load "b"] []); [blockac|constructor]|].
    apply (ts_cons _ _ [] []); [|constructor]. apply (ts_node j_join _ [Load "a"] []); [blockac|constructor]. }
  split; [apply paths_defined; repeat constructor; cbn; tauto|]. split; [vm_compute; reflexivity|].
  split; [econstructor; [econstructor; [constructor|cbn; auto|cbn; auto]|cbn; auto|cbn; auto]|].
  split. { cbn [rev app]. econstructor; [blockac|]. econstructor; [blockac|]. econstructor; [blockac|]. constructor. }
  split; [cbn; tauto|]. split; [repeat constructor; cbn; intuition discriminate|].
  cbn. intros (_ & _ & (c & E & R) & _). vm_compute in E. injection E as <-. vm_compute in R. discriminate.
Qed.

(** A loop: [a], stored before the loop, is loaded in the body for the last time
    of the tree; the body then stores [b] in the same register; the second
    iteration loads [b] for [a]. *)
Definition w_entry := blk "E" [] [] ["H"] ["VSET(a)"] [] [].
Definition w_head := blk "H" [] [] ["B"] [] [] [].
Definition w_body := blk "B" [] [] ["H"] ["VGET(a)"; "VSET(b)"; "VGET(b)"] [] [].
Definition w_blocks := [("E", w_entry); ("H", w_head); ("B", w_body)].
Definition w_tree := DNode w_entry [DNode w_head [DNode w_body []]].
Lemma w_dominators : dominator_tree w_blocks w_entry w_tree.
Proof.
  split; [reflexivity|]. split.
  - intros b. rewrite in_tree_In. cbn. split.
    + intros [<-|[<-|[<-|[]]]]; cbn; auto.
    + intros [E|[E|[E|[]]]]; injection E as _ <-; auto.
  - assert (B : forall w, exec w_blocks w_entry (w_body :: w) -> exists w', w = w_head :: w' /\ exec w_blocks w_entry w).
    { intros w H. exec_cases H.
      assert (X : In (rb_name b, b) w_blocks) by (inversion H2; subst; [left; reflexivity|assumption]).
      destruct X as [E|[E|[E|[]]]]; injection E as _ <-; cbn in H3; try (intuition discriminate). eauto. }
    intros p c P. inversion P as [? ? t It|? ? ? ? t It P']; subst; cbn in It.
    + destruct It as [<-|[]]; cbn. split; [discriminate|]. split; [intros w H; exact (exec_entry _ _ _ H)|].
      intros q Q N w H. assert (E : exec w_blocks w_entry [w_head; w_entry]) by (econstructor; [constructor|cbn; auto|cbn; auto]).
      destruct (Q _ E) as [X|[X|[]]]; [congruence|]. subst q. left. reflexivity.
    + destruct It as [<-|[]]. inversion P' as [? ? t It|? ? ? ? t It P'']; subst; cbn in It.
      * destruct It as [<-|[]]; cbn. split; [discriminate|]. split; [intros w H; destruct (B w H) as (w' & -> & _); cbn; auto|].
        intros q Q N w H. assert (E : exec w_blocks w_entry (w_body :: w_head :: w)) by (econstructor; [exact H|cbn; auto|cbn; auto]).
        destruct (Q _ E) as [X|X]; [congruence|exact X].
      * destruct It as [<-|[]]. inversion P''; subst; match goal with H : In _ [] |- _ => destruct H end.
Qed.
Theorem tree_scan_loop_refuted : exists blocks entry t w n k e l,
  dominator_tree blocks entry t /\ join_all [] = Ok w /\
  (forall b, in_tree b t -> rb_last b = no_uses /\ NoDup (rb_copies b) /\ rb_phis b = []) /\
  tree_stores t ["a"; "b"] /\ (forall p l, tree_path t p -> blocks_access p l -> defined_before [] l) /\
  tree_scan (fst (mark_tree t)) w n = Ok k /\
  exec blocks entry e /\ blocks_access (rev e) l /\ defined_before [] l /\
  ~ loads_right (fun x => lookup x (k_color k)) (fun x => x) (fun _ => None) l.
Proof.
  exists w_blocks, w_entry, w_tree, empty_webs, 2. eexists. exists [w_body; w_head; w_body; w_head; w_entry]. eexists.
  split; [exact w_dominators|]. split; [reflexivity|].
  split; [apply blocks_forall; repeat constructor; cbn; intuition discriminate|].
  split. { apply (ts_node w_entry _ [Store "a"] ["b"]); [blockac|]. apply (ts_cons _ _ ["b"] []); [|constructor].
    apply (ts_node w_head _ [] ["b"]); [blockac|]. apply (ts_cons _ _ ["b"] []); [|constructor]. apply (ts_node w_body _ [Load "a"; Store "b"; Load "b"] []); [blockac|constructor]. }
  split; [apply paths_defined; repeat constructor; cbn; tauto|]. split; [vm_compute; reflexivity|].
  split; [repeat (econstructor; [|cbn; auto|cbn; auto]); constructor|].
  split. { cbn [rev app]. do 5 (econstructor; [blockac|]). constructor. }
  split; [cbn; tauto|].
  cbn. intros (_ & _ & (c & E & R) & _). vm_compute in E. injection E as <-. vm_compute in R. discriminate.
Qed.

(** A phi argument that can simply be duplicated from the stack at the end of its
    block has no register; when that is its last use the scan fails
    (KeyError in [release_colour]). *)
Definition p_top := blk "D" [] [] ["T"; "F"] [] [] [].
Definition p_then := blk "T" [] [] ["J"] [] ["x"] [].
Definition p_else := blk "F" [] [] ["J"] [] ["y"] [].
Definition p_join := blk "J" [("z", ["x"; "y"])] ["T"; "F"] [] ["VGET(z)"] [] ["z"].
Definition p_tree := DNode p_top [DNode p_then []; DNode p_else []; DNode p_join []].
Example phi_argument_on_stack_raises : forall n, tree_scan (fst (mark_tree p_tree)) (webs_of [("z", ["x"; "y"])]) n = Raise OtherError.
Proof. intros n. reflexivity. Qed.
Print Assumptions tree_scan_join_refuted.
Print Assumptions tree_scan_loop_refuted.
