(** The file of the example of C52 is written as solc writes it. *)
From Verif Require Import Base Lexical LiveModel CfgModel JumpModel JumpSpec UtilModel ParseModel ParseSpec ParseProofs ParseTranslate ParseComponent ParseSim ParseFile ParseCompile ParseReady.
Notation lookup := UtilModel.lookup.
Open Scope string_scope. Open Scope list_scope.
Lemma block_listed o c x b : jblock_at o c x = Some b -> In b (jblocks o c) /\ js_id b = Some x.
Proof. intros H. apply find_some in H as [I H]. split; [exact I|]. unfold has_id in H. destruct (js_id b); [|discriminate]. apply String.eqb_eq in H. congruence. Qed.
Ltac blocks B := apply block_listed in B as [B Id]; cbn in B; repeat (destruct B as [B|B]; [subst; cbn in Id; injection Id as <-|]); [..|destruct B].
Lemma main_reached x : In x ["Block0"; "Block1"; "Block2"; "Block3"] -> jreached count_file None x.
Proof.
  assert (R0 : jreached count_file None "Block0") by (apply jr_entry; reflexivity).
  assert (R1 : jreached count_file None "Block1") by (eapply jr_step; [exact R0|reflexivity|reflexivity|cbn; tauto]).
  intros [<-|[<-|[<-|[<-|[]]]]]; [exact R0|exact R1|..]; (eapply jr_step; [exact R1|reflexivity|reflexivity|cbn; tauto]).
Qed.
Example count_file_plain : jobject_ok false [] count_file /\ plain_file "C" count_file.
Proof.
  split; [exact count_file_ok|]. split; [|split; [cbn; intros [Q|[]]; discriminate|intros f [<-|[]]; cbn; intuition discriminate]].
  intros [f|] Kc.
  - assert (f = "dec_1") as -> by (destruct Kc as (k & L); apply UtilProps.lookup_In in L; destruct L as [L|[]]; congruence). clear Kc. constructor.
    + intros x b B. blocks B. exists 0. reflexivity.
    + intros x b B. blocks B. apply jr_entry. reflexivity.
    + intros x b e B X T. blocks B. cbn in X. injection X as <-. discriminate.
    + intros x b e B X T. blocks B. cbn in X. injection X as <-. discriminate.
    + intros x b e B X T. blocks B. cbn in X. injection X as <-. intros y [].
    + intros x b y B Hy. blocks B. destruct Hy.
    + intros x b e pre i post B X J L. blocks B. cbn in J. destruct pre as [|p pre]; [injection J as <- _; cbn in L; intuition discriminate|destruct pre; discriminate].
    + intros x b i B Hi. blocks B. destruct Hi as [<-|[]]. split; [cbn; intuition discriminate|]. cbn. intros [Q|[]]. discriminate.
    + intros x b e B X T. blocks B. cbn in X. injection X as <-. exists "dec_1". split; [reflexivity|]. cbn. intros [Q|[]]. discriminate.
  - constructor.
    + intros x b B. blocks B; [exists 0|exists 1|exists 2|exists 3]; reflexivity.
    + intros x b B. blocks B; apply main_reached; cbn; tauto.
    + intros x b e B X T. blocks B; cbn in X; injection X as <-; try discriminate; (eexists; split; [reflexivity|discriminate]).
    + intros x b e B X T. blocks B; cbn in X; injection X as <-; try discriminate; (eexists _, _; split; [reflexivity|repeat split; discriminate]).
    + intros x b e B X T. blocks B; cbn in X; injection X as <-; try (exfalso; apply T; cbn; tauto); intros y [].
    + intros x b y B Hy. blocks B; cbn in Hy; repeat destruct Hy as [<-|Hy]; try destruct Hy; eexists _, _; (split; [reflexivity|split; [reflexivity|cbn; tauto]]).
    + intros x b e pre i post B X J L. blocks B; cbn in X; injection X as <-; cbn in J; repeat (destruct pre as [|? pre]; [injection J as <- E; cbn in L; try (exfalso; intuition discriminate)|cbn in J; try (destruct pre; discriminate); injection J as _ J]).
      all: try discriminate. all: try (split; [symmetry; exact E|cbn; intuition discriminate]). all: try (destruct pre; discriminate).
    + intros x b i B Hi. blocks B; cbn in Hi; repeat destruct Hi as [<-|Hi]; try destruct Hi; (split; [cbn; intuition discriminate|]); cbn; intros Hf v Hv; try (exfalso; destruct Hf as [Q|[]]; discriminate); repeat destruct Hv as [<-|Hv]; try destruct Hv; reflexivity.
    + intros x b e B X T. blocks B; cbn in X; injection X as <-; discriminate.
Qed.
