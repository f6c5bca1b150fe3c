(** The file of the example of C52 meets the conditions of [SourceSpec]. *)
From Coq Require Import Relations.
From Verif Require Import Base Lexical LiveModel CfgModel JumpModel UtilModel ParseModel ParseSpec ParseTranslate ParseComponent ParseSim ParseFile ParseCompile ParseReady SourceSpec ParseSource ReadyExample.
From Verif Require DepsModel.
Notation lookup := UtilModel.lookup.
Open Scope string_scope. Open Scope list_scope.
Notation M := (@None string).
Notation F := (Some "dec_1").
Notation d0 := (ParseFile.ins ["n"] "dec_1" ["0x03"]).
Notation z1 := (ParseFile.ins ["c"] "iszero" ["i"]).
Notation d2 := (ParseFile.ins ["m"] "dec_1" ["i"]).
Notation s3 := (ParseFile.ins [] "sstore" ["0x00"; "i"]).
Notation t3 := (ParseFile.ins [] "stop" []).
Notation sf := (ParseFile.ins ["m"] "sub" ["n"; "0x01"]).
Lemma edges_main x y : jedge count_file M x y -> In (x, y) [("Block0", "Block1"); ("Block1", "Block2"); ("Block1", "Block3"); ("Block2", "Block1")].
Proof. intros (b & e & B & X & H). blocks B; cbn in X; injection X as <-; cbn in H; intuition (subst; cbn; tauto). Qed.
Lemma edge_main x y : In (x, y) [("Block0", "Block1"); ("Block1", "Block2"); ("Block1", "Block3"); ("Block2", "Block1")] -> jedge count_file M x y.
Proof. intros H. cbn in H. repeat (destruct H as [H|H]; [injection H as <- <-; eexists _, _; split; [reflexivity|split; [reflexivity|cbn; tauto]]|]). destruct H. Qed.
Lemma edges_fun x y : ~ jedge count_file F x y.
Proof. intros (b & e & B & X & H). blocks B; cbn in X; injection X as <-. destruct H. Qed.
Lemma not_empty c x b : known count_file c -> jblock_at count_file c x = Some b -> jinstrs b <> [].
Proof.
  intros Kc B. destruct c as [f|].
  - assert (f = "dec_1") as -> by (destruct Kc as (k & L); apply UtilProps.lookup_In in L; destruct L as [L|[]]; congruence). blocks B. discriminate.
  - blocks B; discriminate.
Qed.
Lemma goes_on c x : known count_file c -> ~ jruns_out count_file c x.
Proof. intros Kc H. destruct H as [b e B E|b y B E]; exact (not_empty c x b Kc B E). Qed.
Lemma dec_returns : jreturns count_file "dec_1".
Proof. eexists "Block0", _, _. repeat split; reflexivity. Qed.
Lemma not_alone x y : ~ jalone count_file M x y.
Proof.
  intros (E & S & Q). apply edges_main in E. cbn in E. repeat (destruct E as [E|E]; [injection E as <- <-|]); [..|destruct E].
  - specialize (Q "Block2" ltac:(apply edge_main; cbn; tauto)). discriminate.
  - specialize (S "Block3" ltac:(apply edge_main; cbn; tauto)). discriminate.
  - specialize (S "Block2" ltac:(apply edge_main; cbn; tauto)). discriminate.
  - specialize (Q "Block0" ltac:(apply edge_main; cbn; tauto)). discriminate.
Qed.
Lemma reads_main x : jreads count_file M x -> In x ["0x03"; "0x00"; "n"; "m"; "i"; "c"].
Proof.
  intros (z & b & e & B & X & H). blocks B; cbn in X; injection X as <-; destruct H as [(i & I & H)|[[T H]|[T H]]]; try discriminate T; try (cbn in H; injection H as <-; cbn; tauto).
  all: cbn in I; repeat (destruct I as [<-|I]; [cbn in H; intuition (subst; cbn; tauto)|]); destruct I.
Qed.
Lemma reads_fun x : jreads count_file F x -> In x ["0x01"; "n"; "m"].
Proof.
  intros (z & b & e & B & X & H). blocks B; cbn in X; injection X as <-; destruct H as [(i & I & H)|[[T H]|[T H]]]; try discriminate T.
  - cbn in I. destruct I as [<-|[]]. cbn in H. intuition (subst; cbn; tauto).
  - cbn in H. intuition (subst; cbn; tauto).
Qed.
(** What can be reached without a value for each variable. *)
Definition whole : list (string * list jinstr) :=
  [("Block0", [d0]); ("Block0", []); ("Block1", [z1]); ("Block1", []); ("Block2", [d2]); ("Block2", []); ("Block3", [s3; t3]); ("Block3", [t3]); ("Block3", [])].
Definition without (x : string) : list (string * list jinstr) :=
  if String.eqb x "n" then [("Block0", [d0])]
  else if String.eqb x "i" then [("Block0", [d0]); ("Block0", [])]
  else if String.eqb x "c" then [("Block0", [d0]); ("Block0", []); ("Block1", [z1])]
  else [("Block0", [d0]); ("Block0", []); ("Block1", [z1]); ("Block1", []); ("Block2", [d2]); ("Block3", [s3; t3]); ("Block3", [t3]); ("Block3", [])].
Lemma points_closed X (L : list (string * list jinstr)) :
  In ("Block0", [d0]) L ->
  (forall b i rest, In (b, i :: rest) L -> (forall x, In x X -> ~ In x (results i)) -> In (b, rest) L) ->
  (forall b b' blk' ps rest, In (b, []) L -> jedge count_file M b b' -> jblock_at count_file M b' = Some blk' -> jphis (jinstrs blk') = (ps, rest) -> (forall x, In x X -> ~ In x (flat_map results ps)) -> In (b', rest) L) ->
  forall b rest, jpoint count_file M X b rest -> In (b, rest) L.
Proof.
  intros H1 H2 H3 b rest. induction 1 as [s b rest S B J|b i rest _ IH N|b b' blk' ps rest _ IH E B J N]; [|exact (H2 _ _ _ IH N)|exact (H3 _ _ _ _ _ IH E B J N)].
  cbn in S. injection S as <-. cbn in B. injection B as <-. cbn in J. injection J as <-. exact H1.
Qed.
Lemma next_main b b' blk' ps rest : jedge count_file M b b' -> jblock_at count_file M b' = Some blk' -> jphis (jinstrs blk') = (ps, rest) ->
  (In b ["Block0"; "Block2"] /\ b' = "Block1" /\ flat_map results ps = ["i"] /\ rest = [z1]) \/ (b = "Block1" /\ b' = "Block2" /\ ps = [] /\ rest = [d2]) \/ (b = "Block1" /\ b' = "Block3" /\ ps = [] /\ rest = [s3; t3]).
Proof.
  intros E B J. apply edges_main in E. blocks B; cbn in J; injection J as <- <-; cbn in E; repeat (destruct E as [E|E]; [injection E; intros; subst; try discriminate; cbn; tauto|]); destruct E.
Qed.
Lemma points_main X b rest : jpoint count_file M X b rest -> In (b, rest) whole.
Proof.
  apply points_closed; [cbn; tauto| |].
  - intros b0 i r H _. unfold whole in *. cbn in H. repeat (destruct H as [H|H]; [try discriminate H; injection H as <- <- <-; cbn; tauto|]). destruct H.
  - intros b0 b' blk' ps r H E B J _. destruct (next_main _ _ _ _ _ E B J) as [(_ & -> & _ & ->)|[(_ & -> & _ & ->)|(_ & -> & _ & ->)]]; cbn; tauto.
Qed.
Lemma points_without x b rest : In x ["n"; "i"; "c"; "m"] -> jpoint count_file M [x] b rest -> In (b, rest) (without x).
Proof.
  intros Hx. apply points_closed; [repeat destruct Hx as [<-|Hx]; try destruct Hx; cbn; tauto| |].
  - intros b0 i r H N. specialize (N x (or_introl eq_refl)). repeat destruct Hx as [<-|Hx]; try destruct Hx; cbn in H; repeat (destruct H as [H|H]; [try discriminate H; injection H as <- <- <-; cbn in N |- *; tauto|]); destruct H.
  - intros b0 b' blk' ps r H E B J N. specialize (N x (or_introl eq_refl)). destruct (next_main _ _ _ _ _ E B J) as [(Hb & -> & Fl & ->)|[(-> & -> & _ & ->)|(-> & -> & _ & ->)]];
    [rewrite Fl in N|..]; repeat destruct Hx as [<-|Hx]; try destruct Hx; cbn in H, N |- *; try tauto; repeat (destruct H as [H|H]; [try discriminate H; try (injection H as <-; cbn in Hb; intuition discriminate)|]); destruct H.
Qed.
Lemma reads_here b rest x : In (b, rest) whole -> jread_here count_file M b rest x -> prefix "0x" x = false ->
  In (x, (b, rest)) [("i", ("Block1", [z1])); ("i", ("Block2", [d2])); ("i", ("Block3", [s3; t3])); ("c", ("Block1", [])); ("n", ("Block0", [])); ("m", ("Block2", []))].
Proof.
  intros W H Px. destruct H as [b i rest x H|b blk e x B X T C|b b' blk' k p x E B K Hp Nx|b blk e x B X T C].
  - cbn in W. repeat (destruct W as [W|W]; [try discriminate W; injection W as <- <- <-; cbn in H; intuition (subst; try discriminate; cbn; tauto)|]). destruct W.
  - blocks B; cbn in X; injection X as <-; try discriminate T. cbn in C. injection C as <-. cbn; tauto.
  - apply edges_main in E. blocks B; cbn in Hp; try destruct Hp as [<-|[]]; try destruct Hp; cbn in E; repeat (destruct E as [E|E]; [injection E; intros; subst; try discriminate; cbn in K; injection K as <-; cbn in Nx; injection Nx as <-; cbn; tauto|]); destruct E.
  - blocks B; cbn in X; injection X as <-; discriminate T.
Qed.
Lemma strict_main b rest x : jread_here count_file M b rest x -> prefix "0x" x = false -> ~ jpoint count_file M [x] b rest.
Proof.
  intros H Px P. pose proof (reads_here b rest x (points_main _ _ _ P) H Px) as I. clear H Px.
  assert (Hx : In x ["n"; "i"; "c"; "m"]) by (cbn in I; repeat (destruct I as [I|I]; [injection I as <- _; cbn; tauto|]); destruct I).
  apply (points_without x b rest Hx) in P. clear Hx. cbn in I. repeat (destruct I as [I|I]; [injection I as <- <- <-; cbn in P; intuition discriminate|]). destruct I.
Qed.
Lemma points_fun X b rest : jpoint count_file F X b rest -> (b = "Block0" /\ rest = [sf]) \/ (b = "Block0" /\ rest = [] /\ ~ In "m" X).
Proof.
  induction 1 as [s b rest S B J|b i rest _ IH N|b b' blk' ps rest _ IH E B J N].
  - blocks B. cbn in J. injection J as <-. auto.
  - destruct IH as [[-> Q]|(_ & Q & _)]; [|discriminate]. injection Q as -> ->. right. repeat split. intros H. apply (N _ H). cbn. tauto.
  - destruct (edges_fun _ _ E).
Qed.
Lemma strict_fun b rest x : jread_here count_file F b rest x -> prefix "0x" x = false -> ~ In x ["n"] -> ~ jpoint count_file F [x] b rest.
Proof.
  intros H Px Nx P. apply points_fun in P. destruct H as [b i rest x H|b blk e x B X T C|b b' blk' k p x E B K Hp Nth|b blk e x B X T C].
  - destruct P as [[-> Q]|(_ & Q & _)]; [|discriminate]. injection Q as -> ->. cbn in H. destruct H as [<-|[<-|[]]]; (discriminate || (apply Nx; cbn; tauto)).
  - blocks B. cbn in X. injection X as <-. discriminate T.
  - destruct (edges_fun _ _ E).
  - blocks B. cbn in X. injection X as <-. cbn in C. destruct C as [<-|[]]. destruct P as [[_ Q]|(_ & _ & Q)]; [discriminate|]. apply Q. cbn. tauto.
Qed.
Lemma calls_main f z n : jcall_at count_file f M z n -> In f (map fst (jo_functions count_file)) -> In (z, n) [("Block0", 0); ("Block2", 0)].
Proof.
  intros (b & i & B & N & Op) H. cbn in H. destruct H as [<-|[]]. blocks B; cbn in N; repeat (destruct n as [|n]; cbn in N; [injection N as <-; cbn in Op |- *; try discriminate; tauto|]); destruct n; discriminate.
Qed.
Lemma calls_fun f p z n : jcall_at count_file f (Some p) z n -> ~ In f (map fst (jo_functions count_file)).
Proof.
  intros (b & i & B & N & Op) H. cbn in H. destruct H as [<-|[]]. assert (p = "dec_1") as ->.
  { unfold jblock_at in B. cbn [jblocks] in B. destruct (lookup p (jo_functions count_file)) eqn:L; [apply UtilProps.lookup_In in L; destruct L as [L|[]]; congruence|discriminate]. }
  blocks B. cbn in N. destruct n as [|n]; cbn in N; [injection N as <-; discriminate|destruct n; discriminate].
Qed.
Lemma no_calls p f : ~ jcalls count_file p f.
Proof. induction 1 as [p f z n H I|p q f _ IH _ _]; [exact (calls_fun _ _ _ _ H I)|exact IH]. Qed.
Lemma last_of {A} (l pre : list A) (i d : A) : l = pre ++ [i] -> i = last l d.
Proof. intros ->. rewrite last_last. reflexivity. Qed.

(** Everything [file_code_keeps_meaning_partial] asks of a file. *)
Example count_file_sound : jobject_ok false [] count_file /\ plain_file "C" count_file /\ sound_file count_file /\ jorder count_file ["dec_1"] /\ no_recursion count_file /\
  (forall f, In f (map fst (jo_functions count_file)) -> ~ In f ["return"; "revert"; "stop"; "selfdestruct"]).
Proof.
  split; [exact count_file_ok|]. split; [exact (proj2 count_file_plain)|]. split; [|split; [|split]].
  - intros [f|] Kc.
    + assert (f = "dec_1") as -> by (destruct Kc as (k & L); apply UtilProps.lookup_In in L; destruct L as [L|[]]; congruence). constructor.
      * intros s x _. apply edges_fun.
      * intros a b _. apply edges_fun.
      * intros x b i B I O. blocks B. cbn in I. destruct I as [<-|[]]. discriminate.
      * intros x b B. blocks B. constructor.
      * intros x b pre i y _ _ _ _ E. destruct (edges_fun _ _ E).
      * intros x b e pre i B X _ T. blocks B. cbn in X. injection X as <-. exfalso. apply T. reflexivity.
      * intros f x b e _ B X E. exfalso. exact (not_empty _ _ _ Kc B E).
      * intros x R Px. apply reads_fun in R. cbn in R. destruct R as [<-|[<-|[<-|[]]]]; vm_compute; discriminate.
      * intros x b i B I. blocks B. cbn in I. destruct I as [<-|[]]. discriminate.
      * intros x R Px. apply reads_fun in R. cbn in R. destruct R as [<-|[<-|[<-|[]]]]; [discriminate|left; cbn; tauto|right]. eexists "Block0", _, sf. repeat split; [cbn; tauto|cbn; tauto].
      * cbn. repeat constructor; cbn; intuition discriminate.
      * intros x [H|(z & b & i & B & I & H)]; [cbn in H; destruct H as [<-|[]]; reflexivity|]. blocks B. cbn in I. destruct I as [<-|[]]. cbn in H. destruct H as [<-|[]]. reflexivity.
      * intros b rest x H Px Na. apply strict_fun; [exact H|exact Px|exact Na].
      * intros x b i k B I L. blocks B. cbn in I. destruct I as [<-|[]]. discriminate.
      * intros x b e p i q B X J If. blocks B. cbn in J. destruct p as [|? p]; [injection J as <- _; cbn in If; destruct If as [Q|[]]; discriminate|destruct p; discriminate].
    + constructor.
      * intros s x S E. cbn in S. injection S as <-. apply edges_main in E. cbn in E. intuition discriminate.
      * intros a b H. exfalso. induction H as [a b H|a b d _ IH _ _]; [exact (not_alone _ _ H)|exact IH].
      * intros x b i B I O. blocks B; cbn in I; repeat (destruct I as [<-|I]; [try discriminate O; cbn; split; lia|]); destruct I.
      * intros x b B. blocks B; cbn; repeat constructor; cbn; intuition discriminate.
      * intros x b pre i y _ _ _ _ _. apply goes_on. exact I.
      * intros x b e pre i B X C T J If. blocks B; cbn in X; injection X as <-; try discriminate C. apply last_of with (d := t3) in J. subst i. cbn in If. destruct If as [Q|[]]. discriminate.
      * intros f x b e Q. discriminate.
      * intros x R Px. apply reads_main in R. cbn in R. repeat (destruct R as [<-|R]; [vm_compute; discriminate|]). destruct R.
      * intros x b i B I. blocks B; cbn in I; repeat (destruct I as [<-|I]; [discriminate|]); destruct I.
      * intros x R Px. apply reads_main in R. right. cbn in R. repeat destruct R as [<-|R]; try destruct R; try discriminate Px.
        -- eexists "Block0", _, d0. repeat split; cbn; tauto.
        -- eexists "Block2", _, d2. repeat split; cbn; tauto.
        -- eexists "Block1", _, (ParseFile.phi "i" ["n"; "m"]). repeat split; cbn; tauto.
        -- eexists "Block1", _, z1. repeat split; cbn; tauto.
      * cbn. repeat constructor; cbn; intuition discriminate.
      * intros x [H|(z & b & i & B & I & H)]; [destruct H|]. blocks B; cbn in I; repeat (destruct I as [<-|I]; [cbn in H; repeat destruct H as [<-|H]; try destruct H; reflexivity|]); destruct I.
      * intros b rest x H Px _. apply strict_main; assumption.
      * intros x b i k B I L. assert (operation i = "dec_1") as Q by (apply UtilProps.lookup_In in L; destruct L as [L|[]]; congruence). rewrite Q in *. cbn in L. injection L as <-.
        assert (length (listed (ji_in i)) = 1 /\ length (results i) = 1) as [A R] by (blocks B; cbn in I; repeat (destruct I as [<-|I]; [try discriminate Q; split; reflexivity|]); destruct I).
        split; [rewrite A; reflexivity|]. intros x' b' e' B' X' T'. blocks B'. cbn in X'. injection X' as <-. rewrite R. reflexivity.
      * intros x b e p i q B X J If Nr. exfalso. apply Nr. cbn in If. destruct If as [<-|[]]. exact dec_returns.
  - constructor.
    + repeat constructor. intros [].
    + intros f. split; [intros [<-|[]]; split; [cbn; tauto|]; exists M, "Block0", 0; eexists _, _; repeat split|]. intros [H _]. exact H.
    + intros f p z n If _ H _. destruct (calls_fun _ _ _ _ H). exact If.
  - intros f _ H. exact (no_calls _ _ H).
  - intros f [<-|[]]. cbn. intuition discriminate.
Qed.
