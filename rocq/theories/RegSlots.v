(** C19.  The memory slots of the registers: distinct registers of a block list
    and registers of different block lists are given disjoint slots, at or above
    the initial constant and below the constant finally pushed. *)
From Verif Require Import Base Lexical LexicalProofs SymExecModel AsmModel MachineSpec DepsModel SpecModel UtilModel UtilProps WebModel RegModel.
Open Scope string_scope. Open Scope list_scope.

(* ------------------------------------------------------------------ *)
(** ** [int(hex(z)[2:], 16)] is [z] *)
Lemma hexdigits_of_uint_pos d acc b :
  hex_digits (list_ascii_of_string (HexadecimalString.NilEmpty.string_of_uint d)) (Zpos acc) b
  = match d with Hexadecimal.Nil => if b then Some (Zpos acc) else None
            | _ => Some (Zpos (Pos.of_hex_uint_acc d acc)) end.
Proof.
  revert acc b.
  induction d as [|d IH|d IH|d IH|d IH|d IH|d IH|d IH|d IH|d IH|d IH|d IH|d IH|d IH|d IH|d IH|d IH]; intros acc b;
    [reflexivity|..];
    cbn [HexadecimalString.NilEmpty.string_of_uint list_ascii_of_string hex_digits];
    match goal with |- context [hex_digit ?c] =>
      let v := eval compute in (hex_digit c) in change (hex_digit c) with v end;
    cbn [Pos.of_hex_uint_acc];
    match goal with |- hex_digits _ ?z true = Some (Zpos (Pos.of_hex_uint_acc d ?n)) =>
      replace z with (Zpos n) by lia end; rewrite IH; destruct d; reflexivity.
Qed.
Lemma hexdigits_of_uint_N d b :
  hex_digits (list_ascii_of_string (HexadecimalString.NilEmpty.string_of_uint d)) 0 b
  = match d with Hexadecimal.Nil => if b then Some 0%Z else None
            | _ => Some (Z.of_N (Pos.of_hex_uint d)) end.
Proof.
  revert b.
  induction d as [|d IH|d IH|d IH|d IH|d IH|d IH|d IH|d IH|d IH|d IH|d IH|d IH|d IH|d IH|d IH|d IH]; intros b;
    [reflexivity|..];
    cbn [HexadecimalString.NilEmpty.string_of_uint list_ascii_of_string hex_digits];
    match goal with |- context [hex_digit ?c] =>
      let v := eval compute in (hex_digit c) in change (hex_digit c) with v end;
    cbn [Pos.of_hex_uint Z.of_N].
  { change (0 * 16 + 0)%Z with 0%Z. rewrite IH. destruct d; reflexivity. }
  all: match goal with |- hex_digits _ ?z true = Some (Zpos (Pos.of_hex_uint_acc ?u ?n)) =>
      change z with (Zpos n); rewrite hexdigits_of_uint_pos; destruct u; reflexivity end.
Qed.
Definition hex_char (c : ascii) : bool := match hex_digit c with Some _ => true | None => false end.
Lemma hex_string_chars d : forall c, In c (list_ascii_of_string (HexadecimalString.NilEmpty.string_of_uint d)) -> hex_char c = true.
Proof. induction d; intros c; cbn; [tauto|..]; (intros [<-|H]; [reflexivity|auto]). Qed.
Lemma hex_char_nospace c : hex_char c = true -> is_space c = false.
Proof. intros H. destruct c as [[] [] [] [] [] [] [] []]; vm_compute in H |- *; congruence. Qed.
Lemma hex_char_plain c : hex_char c = true -> Ascii.eqb c "-" = false /\ Ascii.eqb c "+" = false /\ Ascii.eqb c "x" = false /\ Ascii.eqb c "X" = false.
Proof. intros H. destruct c as [[] [] [] [] [] [] [] []]; vm_compute in H |- *; auto; discriminate. Qed.
Lemma py_int16_drop2 z : (0 <= z)%Z -> py_int16 (hex_drop2 z) = Some z.
Proof.
  intros Hz. unfold hex_drop2. destruct z as [|p|p]; [reflexivity| |lia].
  set (d := N.to_hex_uint (Z.to_N (Z.pos p))).
  assert (Nd : d <> Hexadecimal.Nil) by apply to_hex_uint_nonnil.
  assert (E : HexadecimalString.NilZero.string_of_uint d = HexadecimalString.NilEmpty.string_of_uint d) by (destruct d; [congruence|..]; reflexivity).
  rewrite E. pose proof (hex_string_chars d) as Ch. pose proof (hexdigits_of_uint_N d false) as V.
  assert (R : match d with Hexadecimal.Nil => None | _ => Some (Z.of_N (Pos.of_hex_uint d)) end = Some (Z.pos p)).
  { pose proof (HexadecimalN.Unsigned.of_to (Z.to_N (Z.pos p))) as R. fold d in R.
    destruct d; [congruence|..]; f_equal; (transitivity (Z.of_N (Z.to_N (Z.pos p))); [f_equal; exact R|reflexivity]). }
  assert (V' : hex_digits (list_ascii_of_string (HexadecimalString.NilEmpty.string_of_uint d)) 0 false = Some (Z.pos p))
    by (rewrite V; exact R).
  clear V R E. unfold py_int16. rewrite strip_nospace by (intros c I; apply hex_char_nospace, Ch; exact I).
  destruct (list_ascii_of_string (HexadecimalString.NilEmpty.string_of_uint d)) as [|c l] eqn:L; [cbn in V'; discriminate|].
  destruct (hex_char_plain c (Ch c (or_introl eq_refl))) as (-> & -> & _). unfold hex_body.
  destruct l as [|c' l']; [exact V'|].
  destruct (hex_char_plain c' (Ch c' (or_intror (or_introl eq_refl)))) as (_ & _ & -> & ->). rewrite andb_false_r. exact V'.
Qed.

(* ------------------------------------------------------------------ *)
(** ** One block list *)
Lemma Ok_pair {A B} (a a' : A) (b b' : B) : Ok (a, b) = Ok (a', b') -> a = a' /\ b = b'.
Proof. intros H. injection H as -> ->. auto. Qed.
Lemma list_max_In (l : list nat) c : In c l -> (c <= list_max l)%nat.
Proof. intros H. pose proof (proj1 (list_max_le l (list_max l)) (Nat.le_refl _)) as F. exact (proj1 (Forall_forall _ _) F c H). Qed.
Lemma nth_constants b n c s : nth_error (map (fun i => hex_drop2 (b + 32 * Z.of_nat i)) (seq 0 n)) c = Some s ->
  s = hex_drop2 (b + 32 * Z.of_nat c) /\ (c < n)%nat.
Proof.
  intros H. rewrite nth_error_map in H. assert (L : (c < n)%nat).
  { rewrite <- (seq_length n 0). apply nth_error_Some. intros E. rewrite E in H. discriminate. }
  rewrite (nth_error_nth' _ 0 (n := c)) in H by (rewrite seq_length; exact L). rewrite seq_nth in H by exact L. cbn in H. injection H as <-. auto.
Qed.
Lemma nth_constants' b n c : (c < n)%nat -> nth_error (map (fun i => hex_drop2 (b + 32 * Z.of_nat i)) (seq 0 n)) c = Some (hex_drop2 (b + 32 * Z.of_nat c)).
Proof.
  intros L. rewrite nth_error_map, (nth_error_nth' _ 0 (n := c)) by (rewrite seq_length; exact L). rewrite seq_nth by exact L. reflexivity.
Qed.
Lemma repair_blocklist_spec n k sm consts sm' b : (0 <= b)%Z -> py_int16 sm = Some b -> repair_blocklist (n, k) sm = Ok (consts, sm') ->
  exists b', py_int16 sm' = Some b' /\ (b <= b')%Z
    /\ (n = 0 /\ consts = [] /\ sm' = sm
        \/ 0 < n /\ (b + 32 <= b')%Z /\ sm' = hex_drop2 b'
           /\ forall v c, lookup v (k_color k) = Some c -> nth_error consts c = Some (hex_drop2 (b + 32 * Z.of_nat c)) /\ (b + 32 * Z.of_nat c + 32 <= b')%Z).
Proof.
  intros B E H. unfold repair_blocklist in H. destruct (0 <? n)%nat eqn:P.
  - unfold assign_colours_to_constants in H. rewrite E in H. cbn [of_option bind] in H. unfold next_constant in H.
    destruct (k_color k) as [|p0 l0] eqn:K; [discriminate|]. rewrite <- K in *.
    destruct (nth_error _ (list_max (map snd (k_color k)))) as [u|] eqn:U; [|discriminate]. cbn [of_option bind] in H.
    destruct (nth_constants _ _ _ _ U) as (-> & L). rewrite py_int16_drop2 in H by lia. cbn [of_option bind] in H. apply Ok_pair in H as (<- & <-).
    exists (b + 32 * Z.of_nat (list_max (map snd (k_color k))) + 32)%Z. rewrite py_int16_drop2 by lia. split; [reflexivity|]. split; [lia|].
    right. split; [apply Nat.ltb_lt; exact P|]. split; [lia|]. split; [reflexivity|]. intros v c Lk.
    assert (M : (c <= list_max (map snd (k_color k)))%nat) by (apply list_max_In, in_map_iff; exists (v, c); split; [reflexivity|apply lookup_In; exact Lk]).
    split; [apply nth_constants'; lia|lia].
  - injection H as <- <-. exists b. split; [exact E|]. split; [lia|]. left. apply Nat.ltb_ge in P. split; [lia|]. auto.
Qed.

(* ------------------------------------------------------------------ *)
(** ** All the block lists *)

(** The register of variable [v] of list [f] is number [c]. *)
Definition register (lists : list (option (nat * colouring))) (f : nat) (v : string) (c : nat) : Prop :=
  exists n k, nth_error lists f = Some (Some (n, k)) /\ 0 < n /\ lookup v (k_color k) = Some c.
(** The constants of list [f] give register [c] the address [z]. *)
Definition slot (cs : list (list string)) (f c : nat) (z : Z) : Prop :=
  exists consts s, nth_error cs f = Some consts /\ nth_error consts c = Some s /\ hex_value (upper s) = Some z.

Definition chain (lists : list (option (nat * colouring))) (cs : list (list string)) (b b' : Z) : Prop :=
  (b <= b')%Z /\
  (forall f v c, register lists f v c -> exists z, slot cs f c z /\ (b <= z)%Z /\ (z + 32 <= b')%Z) /\
  (forall f v c z f' v' c' z', register lists f v c -> register lists f' v' c' -> slot cs f c z -> slot cs f' c' z' ->
     (f, c) <> (f', c') -> (z + 32 <= z')%Z \/ (z' + 32 <= z)%Z).
Lemma chain_nil b : chain [] [] b b.
Proof. split; [lia|]. split; intros f; intros *; intros (n & k & E & _); destruct f; discriminate. Qed.
Lemma slot_fun cs f c z z' : slot cs f c z -> slot cs f c z' -> z = z'.
Proof. intros (a & s & A1 & A2 & A3) (a' & s' & B1 & B2 & B3). congruence. Qed.
Lemma chain_none ls cs b b' : chain ls cs b b' -> chain (None :: ls) ([] :: cs) b b'.
Proof.
  intros (Lb & A & B). split; [exact Lb|]. split.
  - intros [|f] v c (n & k & E & R); [discriminate|]. destruct (A f v c) as (z & S1 & S2); [exists n, k; auto|]. exists z. auto.
  - intros [|f] v c z [|f'] v' c' z' (n & k & E & R) (n' & k' & E' & R') S1 S2 N; try discriminate.
    apply (B f v c z f' v' c' z'); [exists n, k; auto|exists n', k'; auto|exact S1|exact S2|congruence].
Qed.
Lemma chain_some n k consts ls cs b b1 b' : (0 <= b)%Z -> (b <= b1)%Z ->
  (n = 0 \/ forall v c, lookup v (k_color k) = Some c -> nth_error consts c = Some (hex_drop2 (b + 32 * Z.of_nat c)) /\ (b + 32 * Z.of_nat c + 32 <= b1)%Z) ->
  chain ls cs b1 b' -> chain (Some (n, k) :: ls) (consts :: cs) b b'.
Proof.
  intros P0 L1 F (Lb & A & B). assert (H0 : forall v c, register (Some (n, k) :: ls) 0 v c -> slot (consts :: cs) 0 c (b + 32 * Z.of_nat c) /\ (b + 32 * Z.of_nat c + 32 <= b1)%Z).
  { intros v c (n' & k' & E & Pn & Lk). cbn in E. injection E as <- <-. destruct F as [->|F]; [lia|]. destruct (F v c Lk) as (F1 & F2).
    split; [|exact F2]. exists consts. eexists. split; [reflexivity|]. split; [exact F1|]. apply hex_value_drop2. lia. }
  assert (HS : forall f v c, register (Some (n, k) :: ls) (Datatypes.S f) v c -> exists z, slot cs f c z /\ (b1 <= z)%Z /\ (z + 32 <= b')%Z).
  { intros f v c (n' & k' & E & R). apply (A f v c). exists n', k'. auto. }
  split; [lia|]. split.
  - intros [|f] v c R.
    + destruct (H0 v c R) as (S1 & S2). eexists. split; [exact S1|]. lia.
    + destruct (HS f v c R) as (z & S1 & S2). exists z. split; [exact S1|]. lia.
  - intros [|f] v c z [|f'] v' c' z' R R' S1 S2 N.
    + destruct (H0 v c R) as (T1 & _), (H0 v' c' R') as (T2 & _). rewrite (slot_fun _ _ _ _ _ S1 T1), (slot_fun _ _ _ _ _ S2 T2).
      assert (c <> c') by congruence. lia.
    + destruct (H0 v c R) as (T1 & L), (HS f' v' c' R') as (z2 & T2 & L2). rewrite (slot_fun _ _ _ _ _ S1 T1).
      assert (z' = z2) as -> by (apply (slot_fun cs f' c'); [exact S2|exact T2]). lia.
    + destruct (H0 v' c' R') as (T1 & L), (HS f v c R) as (z2 & T2 & L2). rewrite (slot_fun _ _ _ _ _ S2 T1).
      assert (z = z2) as -> by (apply (slot_fun cs f c); [exact S1|exact T2]). lia.
    + destruct R as (n1 & k1 & E1 & R1), R' as (n2 & k2 & E2 & R2). apply (B f v c z f' v' c' z'); [exists n1, k1; auto|exists n2, k2; auto|exact S1|exact S2|congruence].
Qed.

Lemma repair_functions_some i fs : forall o sm b cs o' m', (0 <= b)%Z -> py_int16 sm = Some b ->
  repair_functions i (Some o) (Some sm) fs = Ok (cs, o', m') ->
  o' = Some o /\ exists sm' b', m' = Some sm' /\ py_int16 sm' = Some b' /\ chain fs cs b b'
    /\ (b' = b /\ sm' = sm \/ (b < b')%Z /\ sm' = hex_drop2 b').
Proof.
  induction fs as [|[[n k]|] fs IH]; intros o sm b cs o' m' Pb Eb H; cbn [repair_functions] in H.
  - injection H as <- <- <-. split; [reflexivity|]. exists sm, b. split; [reflexivity|]. split; [exact Eb|]. split; [apply chain_nil|]. auto.
  - cbn [bind snd fst of_option] in H. destruct (repair_blocklist (n, k) sm) as [[consts sm1]|] eqn:RB; [|discriminate]. cbn [bind snd fst] in H.
    destruct (repair_functions i (Some o) (Some sm1) fs) as [[[cs1 o1] m1]|] eqn:RF; [|discriminate]. cbn [bind] in H. injection H as <- <- <-.
    destruct (repair_blocklist_spec _ _ _ _ _ _ Pb Eb RB) as (b1 & E1 & L1 & D).
    destruct (IH _ _ _ _ _ _ (Z.le_trans _ _ _ Pb L1) E1 RF) as (-> & sm' & b' & -> & Eb' & Ch & D'). split; [reflexivity|].
    exists sm', b'. split; [reflexivity|]. split; [exact Eb'|]. split.
    + apply (chain_some n k consts fs cs1 b b1 b'); auto. destruct D as [(-> & _)|(_ & _ & _ & D)]; auto.
    + destruct D as [(-> & -> & ->)|(Pn & L2 & -> & _)].
      * assert (b1 = b) as -> by congruence. exact D'.
      * right. destruct D' as [(-> & ->)|(L3 & ->)]; split; auto; lia.
  - destruct (repair_functions i (Some o) (Some sm) fs) as [[[cs1 o1] m1]|] eqn:RF; [|discriminate]. cbn [bind] in H. injection H as <- <- <-.
    destruct (IH _ _ _ _ _ _ Pb Eb RF) as (-> & sm' & b' & -> & Eb' & Ch & D'). split; [reflexivity|].
    exists sm', b'. repeat (split; [first [reflexivity|assumption]|]). split; [apply chain_none; exact Ch|exact D'].
Qed.
Lemma repair_functions_none i fs s0 b : (0 <= b)%Z -> get_first_constant i = Ok (Some s0) -> py_int16 s0 = Some b ->
  forall cs o' m', repair_functions i None None fs = Ok (cs, o', m') ->
  exists b', chain fs cs b b' /\ (o' = None /\ m' = None /\ b' = b
    \/ o' = Some s0 /\ exists sm', m' = Some sm' /\ py_int16 sm' = Some b' /\ (b' = b /\ sm' = s0 \/ (b < b')%Z /\ sm' = hex_drop2 b')).
Proof.
  intros Pb G E. induction fs as [|[[n k]|] fs IH]; intros cs o' m' H.
  - injection H as <- <- <-. exists b. split; [apply chain_nil|]. auto.
  - change (repair_functions i None None (Some (n, k) :: fs) = Ok (cs, o', m')) in H. cbn [repair_functions] in H. rewrite G in H. cbn [bind snd fst of_option] in H.
    assert (H' : repair_functions i (Some s0) (Some s0) (Some (n, k) :: fs) = Ok (cs, o', m')) by (cbn [repair_functions bind snd fst of_option]; exact H).
    destruct (repair_functions_some _ _ _ _ _ _ _ _ Pb E H') as (-> & sm' & b' & -> & Eb' & Ch & D). exists b'. split; [exact Ch|]. right. split; [reflexivity|].
    exists sm'. auto.
  - cbn [repair_functions] in H. destruct (repair_functions i None None fs) as [[[cs1 o1] m1]|] eqn:RF; [|discriminate]. cbn [bind] in H. injection H as <- <- <-.
    destruct (IH _ _ _ eq_refl) as (b' & Ch & D). exists b'. split; [apply chain_none; exact Ch|exact D].
Qed.

(** The main list is list 0, the functions are the lists after it.  Every
    register lies in [[base, bound)], different registers are 32 bytes apart at
    least, and the start block pushes [bound] first when it is not [base]. *)
Theorem register_slots : forall i main fs ids cs ids' s0 base,
  get_first_constant i = Ok (Some s0) -> py_int16 s0 = Some base -> (0 <= base)%Z ->
  repair_object i main fs ids = Ok (cs, ids') ->
  exists bound, (base <= bound)%Z /\
    (forall f v c, register (main :: fs) f v c -> exists z, slot cs f c z /\ (base <= z)%Z /\ (z + 32 <= bound)%Z) /\
    (forall f v c z f' v' c' z', register (main :: fs) f v c -> register (main :: fs) f' v' c' -> slot cs f c z -> slot cs f' c' z' ->
       (f, c) <> (f', c') -> (z + 32 <= z')%Z \/ (z' + 32 <= z)%Z) /\
    (bound = base /\ ids' = ids
     \/ exists first rest s rest', ids = first :: rest /\ contains "PUSH" first = true /\ ids' = ("PUSH " ++ s)%string :: rest'
          /\ hex_value (upper s) = Some bound /\ length rest' = length rest
          /\ forall n x, nth_error rest n = Some x -> x <> first -> nth_error rest' n = Some x).
Proof.
  intros i main fs ids cs ids' s0 base G E Pb H. unfold repair_object in H.
  destruct (repair_functions i None None (main :: fs)) as [[[cs1 o] m]|] eqn:RF; [|discriminate]. cbn [bind] in H.
  destruct (repair_functions_none i (main :: fs) s0 base Pb G E _ _ _ RF) as (b' & (L & A & B) & D). exists b'. split; [exact L|].
  assert (S1 : forall sm', (base < b')%Z -> sm' = hex_drop2 b' -> (do ids'' <- set_first_constant sm' ids; Ok (cs1, ids'')) = Ok (cs, ids') -> cs1 = cs /\
    exists first rest s rest', ids = first :: rest /\ contains "PUSH" first = true /\ ids' = ("PUSH " ++ s)%string :: rest'
          /\ hex_value (upper s) = Some b' /\ length rest' = length rest
          /\ forall n x, nth_error rest n = Some x -> x <> first -> nth_error rest' n = Some x).
  { intros sm' Lt -> Hs. destruct ids as [|first rest]; [discriminate|]. cbn [set_first_constant] in Hs.
    destruct (contains "PUSH" first) eqn:C; [|discriminate]. cbn [py_assert bind] in Hs. injection Hs as <- <-. split; [reflexivity|].
    eexists first, rest, _, _. split; [reflexivity|]. split; [exact C|]. cbn [map]. rewrite String.eqb_refl. split; [reflexivity|].
    split; [apply hex_value_drop2; lia|]. split; [apply map_length|]. intros n x Hn Hx. rewrite nth_error_map, Hn. cbn.
    apply String.eqb_neq in Hx. rewrite Hx. reflexivity. }
  destruct D as [(-> & -> & ->)|(-> & sm' & -> & Es & [(-> & ->)|(Lt & ->)])].
  - injection H as <- <-. split; [exact A|]. split; [exact B|]. auto.
  - rewrite String.eqb_refl in H. injection H as <- <-. split; [exact A|]. split; [exact B|]. auto.
  - assert (Ne : (s0 =? hex_drop2 b') = false). { apply String.eqb_neq. intros ->. rewrite py_int16_drop2 in E by lia. injection E as E. lia. }
    rewrite Ne in H. destruct (S1 _ Lt eq_refl H) as (<- & X). split; [exact A|]. split; [exact B|]. right. exact X.
Qed.
Print Assumptions register_slots.

Example register_slots_example :
  let k1 := {| k_color := [("a", 0); ("b", 1); ("c", 0)]; k_total := 0; k_class := []; k_webs := empty_webs |} in
  let k2 := {| k_color := [("x", 0)]; k_total := 0; k_class := []; k_webs := empty_webs |} in
  repair_object {| fi_op := "memoryguard"; fi_literals := ["128"]; fi_in := [] |} (Some (5, k1)) [None; Some (2, k2)] ["PUSH 80"; "PUSH 40"; "MSTORE"]
  = Ok ([["80"; "a0"; "c0"; "e0"; "100"]; []; ["c0"; "e0"]], ["PUSH e0"; "PUSH 40"; "MSTORE"]).
Proof. reflexivity. Qed.

(** The other pushes of the same constant in the start block are changed too: the
    program computed with 0x80, the repaired program computes with 0xa0. *)
Theorem free_memory_update_refuted : exists i main ids cs ids' first rest s rest' n x y,
  repair_object i main [] ids = Ok (cs, ids') /\ ids = first :: rest /\ ids' = ("PUSH " ++ s)%string :: rest' /\
  nth_error rest n = Some x /\ nth_error rest' n = Some y /\ x <> y.
Proof.
  exists {| fi_op := "push"; fi_literals := ["0x80"]; fi_in := [] |},
    (Some (1, {| k_color := [("a", 0)]; k_total := 0; k_class := []; k_webs := empty_webs |})),
    ["PUSH 80"; "PUSH 40"; "MSTORE"; "PUSH 80"; "PUSH 0"; "SSTORE"].
  do 2 eexists. do 4 eexists. exists 2. do 2 eexists. split; [reflexivity|]. split; [reflexivity|]. split; [reflexivity|].
  split; [reflexivity|]. split; [reflexivity|]. discriminate.
Qed.
(** A program that reserves its memory with a hexadecimal literal, or whose first
    instruction is none of the three expected, cannot be repaired. *)
Example memoryguard_hexadecimal_raises main fs ids l : forall a b, py_int (String a (String b l)) = None ->
  main <> None -> repair_object {| fi_op := "memoryguard"; fi_literals := [String a (String b l)]; fi_in := [] |} main fs ids = Raise OtherError.
Proof. intros a b E N. destruct main as [[n k]|]; [|congruence]. unfold repair_object. cbn -[py_int]. rewrite E. reflexivity. Qed.
Example memoryguard_hexadecimal : py_int "0x80" = None.
Proof. reflexivity. Qed.
Example unexpected_first_instruction_raises main fs ids op lits args : (op =? "memoryguard") = false -> (op =? "push") = false -> (op =? "mstore") = false ->
  main <> None -> repair_object {| fi_op := op; fi_literals := lits; fi_in := args |} main fs ids = Raise OtherError.
Proof. intros E1 E2 E3 N. destruct main as [[n k]|]; [|congruence]. unfold repair_object. cbn. unfold get_first_constant. cbn [fi_op]. rewrite E1, E2, E3. reflexivity. Qed.
