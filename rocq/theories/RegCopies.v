(** C20.  The code emitted for register accesses and for the copies between
    registers at the end of a block. *)
From Verif Require Import Base Lexical LexicalProofs SymExecModel AsmModel MachineSpec DepsModel SpecModel UtilModel UtilProps UnifyProps WebModel
  RegModel RegSpec RegProps RegSlots MemSpec.
Open Scope string_scope. Open Scope list_scope. Open Scope Z_scope.

(* ------------------------------------------------------------------ *)
(** ** Memory *)
Lemma bytes_at_store a v m : 0 <= v -> forall n, (n <= 32)%nat ->
  bytes_at n (a + (32 - Z.of_nat n)) (mstore a v m) (v / 256 ^ Z.of_nat n) = v.
Proof.
  intros P. induction n as [|n IH]; intros L.
  - cbn [bytes_at]. change (256 ^ Z.of_nat 0) with 1. apply Z.div_1_r.
  - cbn [bytes_at]. replace (a + (32 - Z.of_nat (S n)) + 1) with (a + (32 - Z.of_nat n)) by lia.
    replace (v / 256 ^ Z.of_nat (S n) * 256 + mstore a v m (a + (32 - Z.of_nat (S n)))) with (v / 256 ^ Z.of_nat n); [apply IH; lia|].
    unfold mstore. destruct ((a <=? _) && _) eqn:B; [|apply andb_false_iff in B as [B|B]; [apply Z.leb_gt in B|apply Z.ltb_ge in B]; lia].
    replace (31 - (a + (32 - Z.of_nat (S n)) - a)) with (Z.of_nat n) by lia.
    replace (Z.of_nat (S n)) with (Z.of_nat n + 1) by lia. rewrite Z.pow_add_r by lia. change (256 ^ 1) with 256.
    rewrite <- Z.div_div by (try apply Z.pow_nonzero; lia). rewrite (Z.div_mod (v / 256 ^ Z.of_nat n) 256) at 1 by lia. lia.
Qed.
Lemma mload_same a v m : 0 <= v < 2 ^ 256 -> mload a (mstore a v m) = v.
Proof.
  intros P. pose proof (bytes_at_store a v m (proj1 P) 32 (Nat.le_refl _)) as H. unfold mload.
  change (Z.of_nat 32) with 32 in H. rewrite Z.div_small in H by (change (256 ^ 32) with (2 ^ 256); lia).
  replace (a + (32 - 32)) with a in H by lia. exact H.
Qed.
Lemma bytes_at_ext m m' : forall n a acc, (forall i, a <= i < a + Z.of_nat n -> m' i = m i) -> bytes_at n a m' acc = bytes_at n a m acc.
Proof.
  induction n as [|n IH]; intros a acc E; cbn [bytes_at]; [reflexivity|]. rewrite E by lia. apply IH. intros i B. apply E. lia.
Qed.
Lemma mload_ext m m' a : (forall i, a <= i < a + 32 -> m' i = m i) -> mload a m' = mload a m.
Proof. intros E. unfold mload. apply bytes_at_ext. intros i B. apply E. exact B. Qed.
Lemma mstore_other a v m i : ~ (a <= i < a + 32) -> mstore a v m i = m i.
Proof. intros N. unfold mstore. destruct (Z.leb_spec a i), (Z.ltb_spec i (a + 32)); cbn; try reflexivity. lia. Qed.
Lemma mstore_bytes a v m : bytes m -> bytes (mstore a v m).
Proof. intros B i. unfold mstore. destruct (_ && _); [apply Z.mod_pos_bound; lia|apply B]. Qed.
Lemma bytes_at_bound m : bytes m -> forall n a acc, 0 <= acc -> 0 <= bytes_at n a m acc < (acc + 1) * 256 ^ Z.of_nat n.
Proof.
  intros B. induction n as [|n IH]; intros a acc P; cbn [bytes_at].
  - change (256 ^ Z.of_nat 0) with 1. lia.
  - pose proof (B a) as Ba. specialize (IH (a + 1) (acc * 256 + m a) ltac:(lia)).
    replace (Z.of_nat (S n)) with (Z.of_nat n + 1) by lia. rewrite Z.pow_add_r by lia. change (256 ^ 1) with 256.
    assert (0 < 256 ^ Z.of_nat n) by (apply Z.pow_pos_nonneg; lia). nia.
Qed.
Lemma mload_word m a : bytes m -> 0 <= mload a m < 2 ^ 256.
Proof. intros B. pose proof (bytes_at_bound m B 32 a 0 ltac:(lia)) as H. unfold mload. change ((0 + 1) * 256 ^ Z.of_nat 32) with (2 ^ 256) in H. exact H. Qed.

Lemma run_app l l' st : run (l ++ l') st = match run l st with Some st' => run l' st' | None => None end.
Proof. revert st. induction l as [|id l IH]; intros st; [reflexivity|]. cbn. destruct (run_id id st); [apply IH|reflexivity]. Qed.

(* ------------------------------------------------------------------ *)
(** ** Accesses to a register *)
Lemma run_push z s m : 0 <= z -> run_id ("PUSH " ++ hex_drop2 z)%string (s, m) = Some (z :: s, m).
Proof.
  intros P. unfold run_id. pose proof (startswith_app "PUSH " (hex_drop2 z)) as E. unfold startswith in *. rewrite E.
  change 5%nat with (String.length "PUSH "). rewrite sdrop_app, hex_value_drop2 by exact P. reflexivity.
Qed.
Lemma run_vget z s m : 0 <= z -> run (emit_vget (hex_drop2 z)) (s, m) = Some (mload z m :: s, m).
Proof. intros P. unfold emit_vget. cbn [run]. rewrite run_push by exact P. reflexivity. Qed.
Lemma run_vset z v s m : 0 <= z -> run (emit_vset (hex_drop2 z)) (v :: s, m) = Some (s, mstore z v m).
Proof. intros P. unfold emit_vset. cbn [run]. rewrite run_push by exact P. reflexivity. Qed.
Lemma run_dup n s m v : 1 <= n <= 16 -> nth_error s (Z.to_nat (n - 1)) = Some v -> run_id ("DUP" ++ str_Z n)%string (s, m) = Some (v :: s, m).
Proof.
  intros P E. unfold run_id. assert (H1 : startswith "PUSH " ("DUP" ++ str_Z n)%string = false) by reflexivity. rewrite H1.
  assert (H2 : String.eqb ("DUP" ++ str_Z n) "MLOAD" = false) by reflexivity. rewrite H2.
  assert (H3 : String.eqb ("DUP" ++ str_Z n) "MSTORE" = false) by reflexivity. rewrite H3.
  pose proof (startswith_app "DUP" (str_Z n)) as H4. unfold startswith in *. rewrite H4.
  change 3%nat with (String.length "DUP"). rewrite sdrop_app. assert (H5 : py_int (str_Z n) = Some n).
  { pose proof (py_int_str_Z n ltac:(lia)) as H5. unfold str_Z in *. destruct n as [|p|p]; [lia| |lia]. cbn [Z.to_int DecimalString.NilZero.string_of_int] in *.
    assert (U : forall d, upper (DecimalString.NilZero.string_of_uint d) = DecimalString.NilZero.string_of_uint d)
      by (intros []; [reflexivity|..]; apply upper_str_uint). rewrite U in H5. exact H5. }
  rewrite H5. destruct (Z.leb_spec 1 n), (Z.leb_spec n 16); try lia. cbn [andb]. rewrite E. reflexivity.
Qed.

Definition reg (base : Z) (c : nat) : Z := base + 32 * Z.of_nat c.
Lemma constants_of_colours n sm base constants : py_int16 sm = Some base -> assign_colours_to_constants n sm = Ok constants ->
  forall c s, nth_error constants c = Some s -> s = hex_drop2 (reg base c).
Proof.
  intros E H c s Hs. unfold assign_colours_to_constants in H. rewrite E in H. cbn [of_option bind] in H.
  assert (Q : constants = map (fun i => hex_drop2 (base + 32 * Z.of_nat i)) (seq 0 n)) by congruence. subst constants.
  exact (proj1 (nth_constants _ _ _ _ Hs)).
Qed.

(** [VGET(x)] pushes the register of [x], [VSET(x)] pops the top of the stack
    into it, [DUP-VSET(x,p)] copies into it the element of the stack at
    0-based position [p]; nothing else changes. *)
Lemma comma_head c x : contains "," (String c x) = false -> Ascii.eqb c "," = false /\ contains "," x = false.
Proof.
  intros C. change (prefix "," (String c x) || contains "," x = false) in C. apply orb_false_iff in C as (C1 & C2). split; [|exact C2].
  destruct (Ascii.eqb_spec c ","%char) as [->|N]; [|reflexivity]. exfalso. revert C1. cbn. destruct x; discriminate.
Qed.
Lemma split_comma_two x p : contains "," x = false -> contains "," p = false -> split_comma (x ++ "," ++ p)%string = [x; p].
Proof.
  intros Cx Cp. assert (H1 : forall y, contains "," y = false -> split_comma y = [y]).
  { induction y as [|c y IH]; [reflexivity|]. intros C. apply comma_head in C as (C1 & C2). cbn [split_comma]. rewrite C1, (IH C2). reflexivity. }
  induction x as [|c x IH].
  - cbn. rewrite (H1 p Cp). reflexivity.
  - apply comma_head in Cx as (C1 & C2). change ((String c x ++ "," ++ p)%string) with (String c (x ++ "," ++ p)). cbn [split_comma]. rewrite C1, (IH C2). reflexivity.
Qed.
Lemma extract_pos x p z : contains "," x = false -> contains "," p = false -> py_int p = Some z -> extract_dup_pos (dup_vset_id x p) = Ok z.
Proof.
  intros Cx Cp E. unfold extract_dup_pos, dup_vset_id.
  change ((do p0 <- of_option (nth_error (split_comma (sinit (x ++ "," ++ p ++ ")")%string)) 1); of_option (py_int p0)) = Ok z).
  replace (x ++ "," ++ p ++ ")")%string with ((x ++ "," ++ p) ++ String ")"%char "")%string by (rewrite !sapp_assoc; reflexivity).
  rewrite sinit_app, split_comma_two by assumption. cbn. rewrite E. reflexivity.
Qed.
Theorem register_accesses : forall sm base n constants k x c,
  py_int16 sm = Some base -> 0 <= base -> assign_colours_to_constants n sm = Ok constants ->
  lookup x (k_color k) = Some c -> (c < n)%nat ->
  (exists ids, emit_id constants k (vget_id x) = Ok ids /\ forall s m, run ids (s, m) = Some (mload (reg base c) m :: s, m)) /\
  (exists ids, emit_id constants k (vset_id x) = Ok ids /\ forall v s m, run ids (v :: s, m) = Some (s, mstore (reg base c) v m)) /\
  (forall pos p, contains "," x = false -> contains "," pos = false -> py_int pos = Some p -> 0 <= p <= 15 ->
     exists ids, emit_id constants k (dup_vset_id x pos) = Ok ids /\
       forall s m v, nth_error s (Z.to_nat p) = Some v -> run ids (s, m) = Some (s, mstore (reg base c) v m)).
Proof.
  intros sm base n constants k x c Eb Pb Hc Lx Lc. assert (Nc : nth_error constants c = Some (hex_drop2 (reg base c))).
  { unfold assign_colours_to_constants in Hc. rewrite Eb in Hc. cbn [of_option bind] in Hc.
    assert (Q : constants = map (fun i => hex_drop2 (base + 32 * Z.of_nat i)) (seq 0 n)) by congruence. subst constants. apply nth_constants'. exact Lc. }
  assert (Co : constant_of constants k x = Ok (hex_drop2 (reg base c))) by (unfold constant_of; rewrite Lx; cbn [of_option bind]; rewrite Nc; reflexivity).
  assert (Pr : 0 <= reg base c) by (unfold reg; lia). split; [|split].
  - exists (emit_vget (hex_drop2 (reg base c))). split; [|intros s m; apply run_vget; exact Pr].
    unfold emit_id. change (startswith "VGET" (vget_id x)) with true. rewrite extract_vget. cbn [of_option bind]. rewrite Co. reflexivity.
  - exists (emit_vset (hex_drop2 (reg base c))). split; [|intros v s m; apply run_vset; exact Pr].
    unfold emit_id. change (startswith "VGET" (vset_id x)) with false. change (startswith "VSET" (vset_id x)) with true. rewrite extract_vset. cbn [of_option bind]. rewrite Co. reflexivity.
  - intros pos p Cx Cp Ep Bp. exists (emit_dup_vset (hex_drop2 (reg base c)) p). split.
    + unfold emit_id. change (startswith "VGET" (dup_vset_id x pos)) with false. change (startswith "VSET" (dup_vset_id x pos)) with false.
      change (startswith "DUP-VSET" (dup_vset_id x pos)) with true. rewrite extract_dup by exact Cx. cbn [of_option bind].
      rewrite (extract_pos x pos p Cx Cp Ep). cbn [bind]. rewrite Co. reflexivity.
    + intros s m v E. unfold emit_dup_vset. cbn [run]. rewrite (run_dup (p + 1) s m v); [|lia|replace (p + 1 - 1) with p by lia; exact E].
      apply run_vset. exact Pr.
Qed.
Print Assumptions register_accesses.
Example register_accesses_example :
  let k := {| k_color := [("a", 0%nat); ("b", 1%nat)]; k_total := 0; k_class := []; k_webs := empty_webs |} in
  match assign_colours_to_constants 2 "80" with
  | Ok cs => map_result (emit_id cs k) [dup_vset_id "b" "3"; "ADD"; vget_id "b"; vset_id "a"]
  | Raise e => Raise e
  end = Ok [["DUP4"; "PUSH a0"; "MSTORE"]; ["ADD"]; ["PUSH a0"; "MLOAD"]; ["PUSH 80"; "MSTORE"]].
Proof. reflexivity. Qed.

(* ------------------------------------------------------------------ *)
(** ** Copies between registers *)
Definition in_reg (base : Z) (c : nat) (i : Z) : Prop := reg base c <= i < reg base c + 32.
Lemma reg_disjoint base c d i : in_reg base c i -> in_reg base d i -> c = d.
Proof. unfold in_reg, reg. intros H H'. assert (Z.of_nat c = Z.of_nat d) by lia. lia. Qed.
Lemma map_result_cons {A B} (f : A -> result B) x xs ys : map_result f (x :: xs) = Ok ys -> exists y ys', ys = y :: ys' /\ f x = Ok y /\ map_result f xs = Ok ys'.
Proof. cbn. destruct (f x) as [y|]; [|discriminate]. cbn. destruct (map_result f xs) as [ys'|]; [|discriminate]. cbn. intros H. injection H as <-. eauto. Qed.

Lemma run_loads base constants : 0 <= base -> (forall c s, nth_error constants c = Some s -> s = hex_drop2 (reg base c)) ->
  forall (regs : list (string * (nat * nat))) loads s m,
  map_result (fun c => do x <- of_option (nth_error constants (snd (snd c))); Ok (emit_vget x)) regs = Ok loads ->
  run (concat loads) (s, m) = Some (rev (map (fun c => mload (reg base (snd (snd c))) m) regs) ++ s, m).
Proof.
  intros Pb Hc. induction regs as [|c regs IH]; intros loads s m H; [injection H as <-; reflexivity|].
  apply map_result_cons in H as (y & ys & -> & Hy & Hr). destruct (nth_error constants (snd (snd c))) as [t|] eqn:E; [|discriminate].
  cbn [of_option bind] in Hy. injection Hy as <-. rewrite (Hc _ _ E). cbn [concat]. rewrite run_app, run_vget by (unfold reg; lia).
  rewrite (IH ys _ m Hr). cbn [map rev]. rewrite <- app_assoc. reflexivity.
Qed.
Lemma run_stores base constants : 0 <= base -> (forall c s, nth_error constants c = Some s -> s = hex_drop2 (reg base c)) ->
  forall dsts stores vs s m,
  map_result (fun c => do x <- of_option (nth_error constants c); Ok (emit_vset x)) dsts = Ok stores -> length vs = length dsts -> NoDup dsts -> words vs ->
  exists m', run (concat stores) (vs ++ s, m) = Some (s, m') /\
    (forall d v, In (d, v) (combine dsts vs) -> mload (reg base d) m' = v) /\
    (forall i, (forall d, In d dsts -> ~ in_reg base d i) -> m' i = m i).
Proof.
  intros Pb Hc. induction dsts as [|d dsts IH]; intros stores vs s m H L N W.
  - injection H as <-. destruct vs; [|discriminate]. exists m. split; [reflexivity|]. split; [intros d v []|auto].
  - destruct vs as [|v vs]; [discriminate|]. apply map_result_cons in H as (y & ys & -> & Hy & Hr).
    destruct (nth_error constants d) as [t|] eqn:E; [|discriminate]. cbn [of_option bind] in Hy. injection Hy as <-. rewrite (Hc _ _ E).
    inversion N as [|? ? N1 N2]; subst. inversion W as [|? ? W1 W2]; subst. cbn in L.
    destruct (IH ys vs s (mstore (reg base d) v m) Hr ltac:(lia) N2 W2) as (m' & R & V & F). exists m'. split; [|split].
    + cbn [concat]. rewrite run_app. cbn [app]. rewrite run_vset by (unfold reg; lia). exact R.
    + intros d' v' [Q|I]; [injection Q as <- <-|apply V; exact I].
      rewrite (mload_ext (mstore (reg base d) v m) m'); [apply mload_same; exact W1|]. intros i B. apply F. intros d' I B'.
      rewrite (reg_disjoint base d d' i B B') in N1. contradiction.
    + intros i B. rewrite F by (intros d' I; apply B; right; exact I). apply mstore_other. apply (B d). left. reflexivity.
Qed.
Lemma fold_dsts (regs : list (string * (nat * nat))) : forall acc, fold_left (fun acc c => fst (snd c) :: acc) regs acc = rev (map (fun c => fst (snd c)) regs) ++ acc.
Proof. induction regs as [|c regs IH]; intros acc; [reflexivity|]. cbn. rewrite IH, <- app_assoc. reflexivity. Qed.
Lemma combine_rev {A B} (l : list A) : forall l' : list B, length l = length l' -> combine (rev l) (rev l') = rev (combine l l').
Proof.
  induction l as [|a l IH]; intros [|b l'] L; try discriminate; [reflexivity|]. cbn in *. rewrite <- IH by lia.
  assert (G : forall (p : list A) (q : list B), length p = length q -> combine (p ++ [a]) (q ++ [b]) = combine p q ++ [(a, b)]).
  { induction p as [|x p IHp]; intros [|y q] E; try discriminate; [reflexivity|]. cbn in *. rewrite IHp by lia. reflexivity. }
  apply G. rewrite !rev_length. lia.
Qed.

(** The copies of a list (variable, (destination, source)) with distinct
    destinations: every destination receives the value its source had before the
    copies; the stack and the rest of the memory are unchanged. *)
Theorem copies_parallel : forall sm base n constants regs ids,
  py_int16 sm = Some base -> 0 <= base -> assign_colours_to_constants n sm = Ok constants ->
  NoDup (map (fun c => fst (snd c)) regs) -> emit_copies regs [] constants = Ok ids ->
  forall s m, bytes m -> exists m', run ids (s, m) = Some (s, m') /\
    (forall x d c, In (x, (d, c)) regs -> mload (reg base d) m' = mload (reg base c) m) /\
    (forall i, (forall x d c, In (x, (d, c)) regs -> ~ in_reg base d i) -> m' i = m i).
Proof.
  intros sm base n constants regs ids Eb Pb Hc N H s m B. pose proof (constants_of_colours n sm base constants Eb Hc) as Cs.
  unfold emit_copies in H. destruct (map_result _ regs) as [loads|] eqn:HL; [|discriminate]. cbn [bind] in H. rewrite fold_dsts, app_nil_r in H.
  destruct (map_result _ (rev _)) as [stores|] eqn:HS; [|discriminate]. cbn [bind map_result concat] in H. injection H as <-.
  rewrite app_nil_r, run_app, (run_loads base constants Pb Cs regs loads s m HL).
  destruct (run_stores base constants Pb Cs _ _ (rev (map (fun c => mload (reg base (snd (snd c))) m) regs)) s m HS) as (m' & R & V & F).
  - rewrite !rev_length, !map_length. reflexivity.
  - apply NoDup_rev. exact N.
  - apply Forall_rev. apply Forall_forall. intros v I. apply in_map_iff in I as (c & <- & _). apply mload_word. exact B.
  - exists m'. split; [exact R|]. split.
    + intros x d c I. apply V. rewrite combine_rev by (rewrite !map_length; reflexivity). apply -> in_rev.
      clear - I. induction regs as [|r regs IH]; [destruct I|]. destruct I as [->|I]; [left; reflexivity|right; auto].
    + intros i Hi. apply F. intros d I. apply in_rev in I. apply in_map_iff in I as ([x [d' c]] & <- & I). exact (Hi x d' c I).
Qed.
Print Assumptions copies_parallel.
(** A cycle of three registers. *)
Example copies_cycle : match assign_colours_to_constants 3 "80" with
  | Ok cs => emit_copies [("a", (1%nat, 0%nat)); ("b", (2%nat, 1%nat)); ("c", (0%nat, 2%nat))] [] cs | Raise e => Raise e end
  = Ok ["PUSH 80"; "MLOAD"; "PUSH a0"; "MLOAD"; "PUSH c0"; "MLOAD"; "PUSH 80"; "MSTORE"; "PUSH c0"; "MSTORE"; "PUSH a0"; "MSTORE"].
Proof. reflexivity. Qed.

(* ------------------------------------------------------------------ *)
(** ** Copies for the phi functions of the successors *)

(** The phi function of a successor of [b] that defines [d] in a register takes
    the value of [a] when it is reached from [b]. *)
Definition phi_value (blocks : list (string * rblock)) (b : rblock) (d a : string) : Prop :=
  exists s sb e args, In s (rb_succs b) /\ lookup s blocks = Some sb /\
    nth_error (rb_entries sb) e = Some (rb_name b) /\ (forall e', (e' < e)%nat -> nth_error (rb_entries sb) e' <> Some (rb_name b)) /\
    In (d, args) (rb_phis sb) /\ In d (rb_solve sb) /\ nth_error args e = Some a.

Lemma index_of_first x l n : index_of x l = Some n <-> nth_error l n = Some x /\ forall n', (n' < n)%nat -> nth_error l n' <> Some x.
Proof.
  revert n. induction l as [|y l IH]; intros n; cbn [index_of]; [split; [discriminate|intros (E & _); destruct n; discriminate]|].
  destruct (String.eqb_spec y x) as [->|N].
  - split; [intros [= <-]; split; [reflexivity|lia]|]. intros (E & F). destruct n; [reflexivity|]. exfalso. apply (F 0%nat); [lia|reflexivity].
  - destruct n as [|n]; split.
    + destruct (index_of x l); discriminate.
    + intros (E & _). cbn in E. congruence.
    + destruct (index_of x l) as [k|] eqn:K; [|discriminate]. cbn. intros [= <-]. destruct (proj1 (IH k) eq_refl) as (K1 & K2). split; [exact K1|].
      intros [|n'] L; cbn; [congruence|]. apply K2. lia.
    + intros (E & F). cbn in E. assert (K : index_of x l = Some n) by (apply IH; split; [exact E|]; intros n' L; apply (F (S n')); lia).
      rewrite K. reflexivity.
Qed.

(** the pairs (defined variable, argument), in the order of the code *)
Definition phi_pairs (solve : list string) (e : nat) (phis : list (string * list string)) : list (string * string) :=
  flat_map (fun phi => if mem (fst phi) solve then match nth_error (snd phi) e with Some a => [(fst phi, a)] | None => [] end else []) phis.
Definition succ_pairs (blocks : list (string * rblock)) (b : rblock) (s : string) : list (string * string) :=
  match lookup s blocks with
  | Some sb => match index_of (rb_name b) (rb_entries sb) with Some e => phi_pairs (rb_solve sb) e (rb_phis sb) | None => [] end
  | None => []
  end.
Definition needed (blocks : list (string * rblock)) (b : rblock) : list (string * string) := flat_map (succ_pairs blocks b) (rb_succs b).
Lemma phi_value_needed blocks b d a : phi_value blocks b d a <-> In (d, a) (needed blocks b).
Proof.
  unfold needed. rewrite in_flat_map. split.
  - intros (s & sb & e & args & Is & Ls & E & F & Ip & Id & Ea). exists s. split; [exact Is|]. unfold succ_pairs. rewrite Ls.
    rewrite (proj2 (index_of_first _ _ _) (conj E F)). unfold phi_pairs. apply in_flat_map. exists (d, args). split; [exact Ip|]. cbn.
    apply mem_In in Id. rewrite Id, Ea. left. reflexivity.
  - intros (s & Is & I). unfold succ_pairs in I. destruct (lookup s blocks) as [sb|] eqn:Ls; [|destruct I].
    destruct (index_of _ _) as [e|] eqn:E; [|destruct I]. apply index_of_first in E as (E & F). unfold phi_pairs in I.
    apply in_flat_map in I as ([d' args] & Ip & I). cbn in I. destruct (mem d' (rb_solve sb)) eqn:M; [|destruct I].
    destruct (nth_error args e) as [a'|] eqn:Ea; [|destruct I]. destruct I as [I|[]]. injection I as -> ->. apply mem_In in M.
    exists s, sb, e, args. auto 8.
Qed.

Definition add_copy (k : colouring) (regs : list (string * (nat * nat))) (p : string * string) : list (string * (nat * nat)) :=
  match lookup (fst p) (k_color k), lookup (snd p) (k_color k) with
  | Some cd, Some ca => if (ca =? cd)%nat then regs else dict_set (snd p) (cd, ca) regs
  | _, _ => regs
  end.
Definition coloured (k : colouring) (x : string) : Prop := exists c, lookup x (k_color k) = Some c.

Lemma collect_phis k b solve e phis : forall regs dups regs' dups',
  (forall d a, In (d, a) (phi_pairs solve e phis) -> coloured k a) ->
  for_each (collect_phi k b solve e) phis (regs, dups) = Ok (regs', dups') ->
  dups' = dups /\ regs' = fold_left (add_copy k) (phi_pairs solve e phis) regs /\ forall d a, In (d, a) (phi_pairs solve e phis) -> coloured k d.
Proof.
  induction phis as [|[d args] phis IH]; intros regs dups regs' dups' Hc H; cbn [for_each] in H.
  - injection H as <- <-. split; [reflexivity|]. split; [reflexivity|]. intros d a [].
  - unfold collect_phi at 1 in H. cbn [fst snd] in H. cbn [phi_pairs flat_map fst snd] in Hc |- *. fold (phi_pairs solve e phis) in Hc |- *.
    destruct (mem d solve) eqn:M.
    + destruct (nth_error args e) as [a|] eqn:Ea; [|discriminate]. cbn [of_option bind] in H. destruct (lookup d (k_color k)) as [cd|] eqn:Ld; [|discriminate].
      cbn [of_option bind] in H. destruct (Hc d a) as (ca & La); [left; reflexivity|]. rewrite La in H. cbn [bind] in H.
      apply IH in H as (-> & -> & H); [|intros d' a' I; apply (Hc d' a'); right; exact I]. split; [reflexivity|]. split.
      * cbn [app fold_left]. f_equal. unfold add_copy. cbn [fst snd]. rewrite Ld, La. reflexivity.
      * intros d' a' [I|I]; [injection I as <- <-; exists cd; exact Ld|exact (H d' a' I)].
    + cbn [bind] in H. apply IH in H as (-> & -> & H); [|intros d' a' I; apply (Hc d' a'); exact I]. auto.
Qed.
Lemma collect_succs k blocks b succs : forall regs dups regs' dups',
  (forall d a, In (d, a) (flat_map (succ_pairs blocks b) succs) -> coloured k a) ->
  for_each (fun st s =>
    do sb <- of_option (lookup s blocks);
    match rb_entries sb with
    | [] => Ok st
    | _ =>
        do _ <- py_assert (match rb_phis sb with [] => false | _ => true end);
        do e <- of_option (index_of (rb_name b) (rb_entries sb));
        for_each (collect_phi k b (rb_solve sb) e) (rb_phis sb) st
    end) succs (regs, dups) = Ok (regs', dups') ->
  dups' = dups /\ regs' = fold_left (add_copy k) (flat_map (succ_pairs blocks b) succs) regs
  /\ forall d a, In (d, a) (flat_map (succ_pairs blocks b) succs) -> coloured k d.
Proof.
  induction succs as [|s succs IH]; intros regs dups regs' dups' Hc H; cbn [for_each] in H.
  - injection H as <- <-. split; [reflexivity|]. split; [reflexivity|]. intros d a [].
  - cbn [flat_map] in Hc |- *. destruct (lookup s blocks) as [sb|] eqn:Ls; [|discriminate]. cbn [of_option bind] in H.
    assert (Q : succ_pairs blocks b s = match index_of (rb_name b) (rb_entries sb) with Some e => phi_pairs (rb_solve sb) e (rb_phis sb) | None => [] end)
      by (unfold succ_pairs; rewrite Ls; reflexivity).
    destruct (rb_entries sb) as [|e0 es] eqn:En.
    + cbn [bind] in H. cbn [index_of] in Q. rewrite Q in *. cbn [app] in *. exact (IH _ _ _ _ Hc H).
    + rewrite <- En in *. clear e0 es En. destruct (rb_phis sb) as [|p0 ps] eqn:Ep; [discriminate|]. rewrite <- Ep in *. clear p0 ps Ep. cbn [py_assert bind] in H.
      destruct (index_of (rb_name b) (rb_entries sb)) as [e|]; [|discriminate]. cbn [of_option bind] in H.
      destruct (for_each (collect_phi k b (rb_solve sb) e) (rb_phis sb) (regs, dups)) as [[r1 d1]|] eqn:F; [|discriminate]. cbn [bind] in H.
      rewrite Q in *. apply collect_phis in F as (-> & -> & F); [|intros d a I; apply (Hc d a), in_app_iff; left; exact I].
      apply IH in H as (-> & -> & H); [|intros d a I; apply (Hc d a), in_app_iff; right; exact I]. split; [reflexivity|]. split.
      * rewrite fold_left_app. reflexivity.
      * intros d a I. apply in_app_iff in I as [I|I]; [exact (F d a I)|exact (H d a I)].
Qed.

(** the dictionary of the copies *)
Lemma add_copies k pairs : forall regs, NoDup (map fst regs) -> let regs' := fold_left (add_copy k) pairs regs in
  NoDup (map fst regs') /\
  (forall a dc, lookup a regs' = Some dc -> lookup a regs = Some dc
     \/ exists d cd ca, In (d, a) pairs /\ lookup d (k_color k) = Some cd /\ lookup a (k_color k) = Some ca /\ cd <> ca /\ dc = (cd, ca)) /\
  (forall a, lookup a regs <> None -> lookup a regs' <> None) /\
  (forall d a cd ca, In (d, a) pairs -> lookup d (k_color k) = Some cd -> lookup a (k_color k) = Some ca -> cd <> ca -> lookup a regs' <> None).
Proof.
  induction pairs as [|[d0 a0] pairs IH]; intros regs N.
  - cbn. split; [exact N|]. split; [auto|]. split; [auto|]. intros d a cd ca [].
  - cbn [fold_left]. assert (N1 : NoDup (map fst (add_copy k regs (d0, a0)))).
    { unfold add_copy. cbn [fst snd]. destruct (lookup d0 (k_color k)), (lookup a0 (k_color k)); auto. destruct (_ =? _)%nat; [exact N|]. apply dict_set_NoDup. exact N. }
    destruct (IH _ N1) as (N2 & A & B & C). split; [exact N2|]. split; [|split].
    + intros a dc L. apply A in L as [L|(d & cd & ca & I & R)]; [|right; exists d, cd, ca; split; [right; exact I|exact R]].
      unfold add_copy in L. cbn [fst snd] in L. destruct (lookup d0 (k_color k)) as [cd|] eqn:Ld; [|auto]. destruct (lookup a0 (k_color k)) as [ca|] eqn:La; [|auto].
      destruct (Nat.eqb_spec ca cd) as [E|E]; [auto|]. rewrite lookup_dict_set in L. destruct (String.eqb_spec a0 a) as [->|Na]; [|auto].
      injection L as <-. right. exists d0, cd, ca. repeat (split; [first [left; reflexivity|assumption|congruence]|]). reflexivity.
    + intros a L. apply B. unfold add_copy. cbn [fst snd]. destruct (lookup d0 (k_color k)), (lookup a0 (k_color k)); auto. destruct (_ =? _)%nat; auto.
      rewrite lookup_dict_set. destruct (String.eqb_spec a0 a); [discriminate|auto].
    + intros d a cd ca [I|I] Ld La Ne; [|exact (C d a cd ca I Ld La Ne)]. injection I as -> ->. apply B. unfold add_copy. cbn [fst snd]. rewrite Ld, La.
      destruct (Nat.eqb_spec ca cd); [congruence|]. rewrite lookup_dict_set, String.eqb_refl. discriminate.
Qed.

(** Copies of a block.  When all the values passed to the phi functions are in
    registers, the registers of the phi functions are different, and no value has
    to be copied to two registers, the ids appended to the block assign all the
    phi functions in parallel. *)
Theorem block_copies_parallel_partial : forall sm base n constants k blocks b new_ids,
  py_int16 sm = Some base -> 0 <= base -> assign_colours_to_constants n sm = Ok constants ->
  rb_copies b <> [] ->
  (forall d a, phi_value blocks b d a -> coloured k a) ->
  (forall d a d' a', phi_value blocks b d a -> phi_value blocks b d' a' -> lookup d (k_color k) = lookup d' (k_color k) -> d = d' /\ a = a') ->
  (forall d d' a, phi_value blocks b d a -> phi_value blocks b d' a -> lookup d (k_color k) <> lookup a (k_color k) ->
     lookup d' (k_color k) <> lookup a (k_color k) -> d = d') ->
  emit_block constants k blocks b = Ok new_ids ->
  exists front copies, map_result (emit_id constants k) (rb_ids b) = Ok front /\ new_ids = concat front ++ copies /\
    forall s m, bytes m -> exists m', run copies (s, m) = Some (s, m') /\
      (forall d a, phi_value blocks b d a -> exists cd ca, lookup d (k_color k) = Some cd /\ lookup a (k_color k) = Some ca
         /\ mload (reg base cd) m' = mload (reg base ca) m) /\
      (forall i, (forall d a cd, phi_value blocks b d a -> lookup d (k_color k) = Some cd -> ~ in_reg base cd i) -> m' i = m i).
Proof.
  intros sm base n constants k blocks b new_ids Eb Pb Hc Nc Col Inj Uni H. unfold emit_block in H.
  destruct (map_result (emit_id constants k) (rb_ids b)) as [front|] eqn:Hf; [|discriminate]. cbn [bind] in H.
  destruct (rb_copies b) as [|c0 cs0] eqn:Ec; [congruence|]. destruct (collect_copies k blocks b) as [[regs dups]|] eqn:CC; [|discriminate].
  cbn [bind fst snd] in H. destruct (emit_copies regs dups constants) as [copies|] eqn:EC; [|discriminate]. cbn [bind] in H. injection H as <-.
  exists front, copies. split; [reflexivity|]. split; [reflexivity|]. intros s m B.
  assert (Col' : forall d a, In (d, a) (needed blocks b) -> coloured k a) by (intros d a I; apply (Col d a), phi_value_needed; exact I).
  destruct (collect_succs k blocks b (rb_succs b) [] [] regs dups Col' CC) as (-> & -> & ColD). fold (needed blocks b) in *.
  destruct (add_copies k (needed blocks b) [] ltac:(constructor)) as (N & A & _ & C). set (regs := fold_left (add_copy k) (needed blocks b) []) in *.
  assert (Or : forall a cd ca, In (a, (cd, ca)) regs -> exists d, phi_value blocks b d a /\ lookup d (k_color k) = Some cd /\ lookup a (k_color k) = Some ca /\ cd <> ca).
  { intros a cd ca I. assert (L : lookup a regs = Some (cd, ca)) by (apply LevelProps.lookup_NoDup; assumption).
    apply A in L as [L|(d & cd' & ca' & Ip & L1 & L2 & Ne & Q)]; [discriminate|]. injection Q as -> ->. exists d. rewrite phi_value_needed. auto. }
  assert (ND : NoDup (map (fun c : string * (nat * nat) => fst (snd c)) regs)).
  { assert (U : forall a c c' cd cd', In (a, (cd, c)) regs -> In (a, (cd', c')) regs -> cd = cd').
    { intros a c c' cd cd' I I'. apply (LevelProps.lookup_NoDup _ _ _ N) in I. apply (LevelProps.lookup_NoDup _ _ _ N) in I'. congruence. }
    assert (U2 : forall a a' c c' cd, In (a, (cd, c)) regs -> In (a', (cd, c')) regs -> a = a').
    { intros a a' c c' cd I I'. destruct (Or _ _ _ I) as (d & P1 & L1 & _), (Or _ _ _ I') as (d' & P2 & L2 & _).
      exact (proj2 (Inj d a d' a' P1 P2 ltac:(congruence))). }
    clear - N U2. revert N U2. clearbody regs. induction regs as [|[a [cd c]] regs IH]; intros N U2; [constructor|]. cbn in *. inversion N as [|? ? N1 N2]; subst.
    constructor.
    - intros I. apply in_map_iff in I as ([a' [cd' c']] & E & I). cbn in E. subst cd'. apply N1. rewrite (U2 a a' c c' cd (or_introl eq_refl) (or_intror I)).
      apply in_map_iff. exists (a', (cd, c')). auto.
    - apply IH; [exact N2|]. intros x x' y y' z I I'. apply (U2 x x' y y' z); right; assumption. }
  destruct (copies_parallel sm base n constants regs copies Eb Pb Hc ND EC s m B) as (m' & R & V & F). exists m'. split; [exact R|]. split.
  - intros d a P. destruct (Col d a P) as (ca & La). destruct (ColD d a) as (cd & Ld); [apply phi_value_needed; exact P|]. exists cd, ca. split; [exact Ld|]. split; [exact La|].
    destruct (Nat.eq_dec cd ca) as [->|Ne].
    + apply mload_ext. intros i Hi. apply F. intros x d' c I Hi'. pose proof (reg_disjoint base ca d' i Hi Hi') as Q. subst d'.
      destruct (Or _ _ _ I) as (d2 & P2 & L2 & L3 & Ne2). destruct (Inj d a d2 x P P2 ltac:(congruence)) as (-> & ->). congruence.
    + assert (L : lookup a regs <> None) by (apply (C d a cd ca); auto; apply phi_value_needed; exact P).
      destruct (lookup a regs) as [[cd' ca']|] eqn:E; [|congruence]. apply lookup_In in E. destruct (Or _ _ _ E) as (d' & P' & L1 & L2 & Ne').
      assert (d = d') as <- by (apply (Uni d d' a P P'); congruence). assert (cd' = cd) as -> by congruence. assert (ca' = ca) as -> by congruence.
      exact (V a cd ca E).
  - intros i Hi. apply F. intros x d c I. destruct (Or _ _ _ I) as (d' & P' & L1 & _). exact (Hi d' x d P' L1).
Qed.
Print Assumptions block_copies_parallel_partial.

(** Two loop variables that are exchanged at every iteration. *)
Definition blk' (name : string) (phis : list (string * list string)) (entries succs ids copies solve : list string) (reach : list (string * (nat * nat * bool))) : rblock :=
  {| rb_name := name; rb_phis := phis; rb_entries := entries; rb_succs := succs; rb_ids := ids; rb_copies := copies; rb_solve := solve;
     rb_reach := reach; rb_last := no_uses |}.
Definition s_head := blk' "H" [("x", ["x0"; "y"]); ("y", ["y0"; "x"])] ["E"; "B"] ["B"] [] [] ["x"; "y"] [].
Definition s_body := blk' "B" [] [] ["H"] ["VGET(x)"; "POP"] ["x"; "y"] [] [].
Definition s_colours := {| k_color := [("x0", 0%nat); ("y0", 1%nat); ("x", 0%nat); ("y", 1%nat)]; k_total := 0; k_class := []; k_webs := empty_webs |}.
Example block_copies_example :
  let blocks := [("H", s_head); ("B", s_body)] in
  (forall d a, phi_value blocks s_body d a <-> (d, a) = ("x", "y") \/ (d, a) = ("y", "x")) /\
  (forall d a, phi_value blocks s_body d a -> coloured s_colours a) /\
  (forall d a d' a', phi_value blocks s_body d a -> phi_value blocks s_body d' a' -> lookup d (k_color s_colours) = lookup d' (k_color s_colours) -> d = d' /\ a = a') /\
  (forall d d' a, phi_value blocks s_body d a -> phi_value blocks s_body d' a -> lookup d (k_color s_colours) <> lookup a (k_color s_colours) ->
     lookup d' (k_color s_colours) <> lookup a (k_color s_colours) -> d = d') /\
  emit_block ["80"; "a0"] s_colours blocks s_body
  = Ok ["PUSH 80"; "MLOAD"; "POP"; "PUSH a0"; "MLOAD"; "PUSH 80"; "MLOAD"; "PUSH a0"; "MSTORE"; "PUSH 80"; "MSTORE"].
Proof.
  intros blocks. assert (P : forall d a, phi_value blocks s_body d a <-> (d, a) = ("x", "y") \/ (d, a) = ("y", "x")).
  { intros d a. rewrite phi_value_needed. cbn. intuition. }
  split; [exact P|]. split; [|split; [|split]].
  - intros d a H. apply P in H as [H|H]; injection H as -> ->; eexists; reflexivity.
  - intros d a d' a' H H' E. apply P in H as [H|H], H' as [H'|H']; injection H as -> ->; injection H' as -> ->; auto; discriminate.
  - intros d d' a H H'. apply P in H as [H|H], H' as [H'|H']; injection H as -> E; injection H' as -> E'; congruence.
  - reflexivity.
Qed.

(** A value passed to two phi functions is only copied to the last of them. *)
Definition d_head := blk' "H" [("x", ["a"; "x"]); ("y", ["a"; "y"])] ["E"; "B"] ["B"] [] [] ["x"; "y"] [].
Definition d_entry := blk' "E" [] [] ["H"] ["DUP-VSET(a,0)"] ["a"] [] [("a", (0%nat, 0%nat, true))].
Theorem copies_same_argument_refuted : exists sm base n constants k blocks b new_ids front copies,
  py_int16 sm = Some base /\ 0 <= base /\ assign_colours_to_constants n sm = Ok constants /\ rb_copies b <> [] /\
  (forall d a, phi_value blocks b d a -> coloured k a) /\
  (forall d a d' a', phi_value blocks b d a -> phi_value blocks b d' a' -> lookup d (k_color k) = lookup d' (k_color k) -> d = d' /\ a = a') /\
  emit_block constants k blocks b = Ok new_ids /\ map_result (emit_id constants k) (rb_ids b) = Ok front /\ new_ids = concat front ++ copies /\
  exists s m m' d a cd ca, bytes m /\ run copies (s, m) = Some (s, m') /\ phi_value blocks b d a /\ lookup d (k_color k) = Some cd /\
    lookup a (k_color k) = Some ca /\ mload (reg base cd) m' <> mload (reg base ca) m.
Proof.
  exists "80", 128, 3%nat, ["80"; "a0"; "c0"], {| k_color := [("a", 0%nat); ("x", 1%nat); ("y", 2%nat)]; k_total := 0; k_class := []; k_webs := empty_webs |},
    [("E", d_entry); ("H", d_head)], d_entry. do 3 eexists.
  assert (P : forall d a, phi_value [("E", d_entry); ("H", d_head)] d_entry d a <-> (d, a) = ("x", "a") \/ (d, a) = ("y", "a")).
  { intros d a. rewrite phi_value_needed. cbn. intuition. }
  split; [reflexivity|]. split; [lia|]. split; [reflexivity|]. split; [discriminate|]. split.
  { intros d a H. apply P in H as [H|H]; injection H as -> ->; eexists; reflexivity. }
  split. { intros d a d' a' H H' E. apply P in H as [H|H], H' as [H'|H']; injection H as -> ->; injection H' as -> ->; auto; discriminate. }
  split; [vm_compute; reflexivity|]. split; [vm_compute; reflexivity|].
  split; [cbn [concat app]; do 3 (apply f_equal2; [reflexivity|]); reflexivity|].
  exists [], (fun i => if i =? 159 then 7 else 0). eexists. exists "x", "a", 1%nat, 0%nat. split; [intros i; destruct (i =? 159); lia|].
  split; [reflexivity|]. split; [apply P; auto|]. split; [reflexivity|]. split; [reflexivity|]. vm_compute. discriminate.
Qed.

(** A value passed to a phi function straight from the stack: the element below
    it is copied instead. *)
Definition o_head := blk' "H" [("x", ["a"; "x"])] ["E"; "B"] ["B"] [] [] ["x"] [].
Definition o_entry := blk' "E" [] [] ["H"] [] ["a"] [] [("a", (0%nat, 0%nat, true))].
Theorem copies_from_stack_refuted : exists sm base n constants k blocks b copies s m m' d a cd p q v,
  py_int16 sm = Some base /\ 0 <= base /\ assign_colours_to_constants n sm = Ok constants /\ rb_ids b = [] /\
  phi_value blocks b d a /\ lookup d (k_color k) = Some cd /\ lookup a (rb_reach b) = Some (p, q, true) /\ nth_error s p = Some v /\
  emit_block constants k blocks b = Ok copies /\ bytes m /\ words s /\ run copies (s, m) = Some (s, m') /\ mload (reg base cd) m' <> v.
Proof.
  exists "80", 128, 1%nat, ["80"], {| k_color := [("x", 0%nat)]; k_total := 0; k_class := []; k_webs := empty_webs |},
    [("E", o_entry); ("H", o_head)], o_entry. eexists. exists [5; 7], (fun _ => 0). eexists. exists "x", "a". do 3 eexists. exists 5.
  split; [reflexivity|]. split; [lia|]. split; [reflexivity|]. split; [reflexivity|]. split; [apply phi_value_needed; cbn; auto|].
  split; [reflexivity|]. split; [reflexivity|]. split; [reflexivity|]. split; [vm_compute; reflexivity|]. split; [intros i; lia|].
  split; [repeat constructor; lia|]. split; [reflexivity|]. vm_compute. discriminate.
Qed.
(** All the values after the top one are shifted in this way; the deepest
    reachable element needs a DUP that does not exist. *)
Theorem copies_from_stack : forall sm base n constants x cd p ids, py_int16 sm = Some base -> 0 <= base ->
  assign_colours_to_constants n sm = Ok constants -> emit_copies [] [(x, (cd, p))] constants = Ok ids ->
  ((p < 15)%nat -> forall s m v, nth_error s (p + 1) = Some v -> run ids (s, m) = Some (s, mstore (reg base cd) v m)) /\
  ((15 <= p)%nat -> forall s m, run ids (s, m) = None).
Proof.
  intros sm base n constants x cd p ids Eb Pb Hc H. pose proof (constants_of_colours n sm base constants Eb Hc) as Cs. unfold emit_copies in H. cbn [map_result fold_left bind concat snd fst] in H.
  destruct (nth_error constants cd) as [t|] eqn:Et; [|discriminate]. cbn [of_option bind concat app] in H.
  assert (Q : ids = emit_dup_vset t (Z.of_nat p + 1)) by (rewrite app_nil_r in H; congruence). subst ids. clear H. rewrite (Cs _ _ Et).
  unfold emit_dup_vset. cbn [run]. replace (Z.of_nat p + 1 + 1) with (Z.of_nat p + 2) by lia. split.
  - intros Lp s m v E. rewrite (run_dup _ s m v); [|lia|replace (Z.to_nat (Z.of_nat p + 2 - 1)) with (p + 1)%nat by lia; exact E].
    apply run_vset. unfold reg. lia.
  - intros Lp s m. assert (X : run_id ("DUP" ++ str_Z (Z.of_nat p + 2)) (s, m) = None); [|rewrite X; reflexivity].
    unfold run_id. set (z := Z.of_nat p + 2). assert (H1 : startswith "PUSH " ("DUP" ++ str_Z z)%string = false) by reflexivity. rewrite H1.
    assert (H2 : String.eqb ("DUP" ++ str_Z z) "MLOAD" = false) by reflexivity. rewrite H2.
    assert (H3 : String.eqb ("DUP" ++ str_Z z) "MSTORE" = false) by reflexivity. rewrite H3.
    pose proof (startswith_app "DUP" (str_Z z)) as H4. unfold startswith in *. rewrite H4.
    change 3%nat with (String.length "DUP"). rewrite sdrop_app. destruct (py_int (str_Z z)) as [z'|] eqn:H5; [|reflexivity].
    assert (z' = z).
    { pose proof (py_int_str_Z z ltac:(lia)) as H6. unfold str_Z in *. destruct z as [|q|q] eqn:Ez; [lia| |lia]. cbn [Z.to_int DecimalString.NilZero.string_of_int] in *.
      assert (U : forall d, upper (DecimalString.NilZero.string_of_uint d) = DecimalString.NilZero.string_of_uint d)
        by (intros []; [reflexivity|..]; apply upper_str_uint). rewrite U in H6. congruence. }
    subst z'. destruct (Z.leb_spec z 16); [lia|]. rewrite andb_false_r. reflexivity.
Qed.
Print Assumptions copies_same_argument_refuted.
Print Assumptions copies_from_stack_refuted.
Print Assumptions copies_from_stack.
