(** Common definitions: Python-style results, strings and decimal numbers. *)
From Coq Require DecimalNat Decimal.
From Coq Require Import DecimalString.
From Coq Require Export String Ascii Bool.
From Coq Require Export List Arith ZArith Lia.
Export ListNotations.
Open Scope list_scope.

(** Python exceptions as values.  [AssertionError] is kept apart from the
    other exceptions because the code catches it separately
    (src/greedy/greedy_previous_param.py:1929 and 1990). *)
Inductive exn := AssertionError | OtherError | OutOfFuel.
Inductive result (A : Type) := Ok (a : A) | Raise (e : exn).
Arguments Ok {A}. Arguments Raise {A}.

Definition bind {A B} (r : result A) (f : A -> result B) : result B :=
  match r with Ok a => f a | Raise e => Raise e end.
Notation "'do' x <- r ; k" := (bind r (fun x => k))
  (at level 200, x pattern, r at level 100, k at level 200).

(** [assert b] *)
Definition py_assert (b : bool) : result unit :=
  if b then Ok tt else Raise AssertionError.

Definition of_option {A} (o : option A) : result A :=
  match o with Some a => Ok a | None => Raise OtherError end.

(** A loop [for x in xs: st = f(st, x)] whose body may raise. *)
Fixpoint for_each {A S} (f : S -> A -> result S) (xs : list A) (s : S) : result S :=
  match xs with
  | [] => Ok s
  | x :: xs' => do s' <- f s x; for_each f xs' s'
  end.

(** [[f(x) for x in xs]] where [f] may raise. *)
Fixpoint map_result {A B} (f : A -> result B) (xs : list A) : result (list B) :=
  match xs with
  | [] => Ok []
  | x :: xs' => do y <- f x; do ys <- map_result f xs'; Ok (y :: ys)
  end.

(** Python's [sub in s] on strings. *)
Fixpoint contains (sub s : string) : bool :=
  prefix sub s ||
  match s with EmptyString => false | String _ s' => contains sub s' end.

(** Python's [s[n:]]. *)
Fixpoint sdrop (n : nat) (s : string) : string :=
  match n, s with
  | O, _ => s
  | S n', String _ s' => sdrop n' s'
  | S _, EmptyString => EmptyString
  end.

(** Python's [s.startswith(p)]. *)
Definition startswith (p s : string) : bool := prefix p s.

(** Python's [int(s)] on a decimal text: surrounding white space, an optional
    sign, digits, single underscores between digits.  Simplification: only
    ASCII white space and digits. *)
Definition is_space (c : ascii) : bool :=
  let n := nat_of_ascii c in
  ((9 <=? n) && (n <=? 13)) || ((28 <=? n) && (n <=? 32)).
Definition digit_of (c : ascii) : option Z :=
  let n := nat_of_ascii c in
  if (48 <=? n) && (n <=? 57) then Some (Z.of_nat (n - 48)) else None.
Fixpoint lstrip (l : list ascii) : list ascii :=
  match l with
  | c :: l' => if is_space c then lstrip l' else l
  | [] => []
  end.
Definition strip (l : list ascii) : list ascii := rev (lstrip (rev (lstrip l))).
Fixpoint py_digits (l : list ascii) (acc : Z) (prev_digit : bool) : option Z :=
  match l with
  | [] => if prev_digit then Some acc else None
  | c :: l' =>
      match digit_of c with
      | Some d => py_digits l' (acc * 10 + d)%Z true
      | None => if Ascii.eqb c "_"%char && prev_digit then py_digits l' acc false else None
      end
  end.
Definition py_int (s : string) : option Z :=
  match strip (list_ascii_of_string s) with
  | [] => None
  | c :: l =>
      if Ascii.eqb c "-"%char then option_map Z.opp (py_digits l 0 false)
      else if Ascii.eqb c "+"%char then py_digits l 0 false
      else py_digits (c :: l) 0 false
  end.

(** Python's [str(n)] for a non-negative integer. *)
Definition str_nat (n : nat) : string := NilZero.string_of_uint (Nat.to_uint n).

(** [x in xs] for lists of strings. *)
Definition mem (x : string) (xs : list string) : bool := existsb (String.eqb x) xs.

(** Python's [xs.count(x)]. *)
Fixpoint count (x : string) (xs : list string) : nat :=
  match xs with
  | [] => 0
  | y :: ys => (if String.eqb y x then 1 else 0) + count x ys
  end.

(** [xs.index(x)] *)
Fixpoint index_of (x : string) (xs : list string) : option nat :=
  match xs with
  | [] => None
  | y :: ys => if String.eqb y x then Some 0 else option_map S (index_of x ys)
  end.

(** Replace position [n] of a list. *)
Fixpoint set_nth {A} (n : nat) (v : A) (l : list A) : list A :=
  match l, n with
  | [], _ => []
  | _ :: l', O => v :: l'
  | x :: l', S n' => x :: set_nth n' v l'
  end.

Fixpoint list_eqb (xs ys : list string) : bool :=
  match xs, ys with
  | [], [] => true
  | x :: xs', y :: ys' => String.eqb x y && list_eqb xs' ys'
  | _, _ => false
  end.

(* ------------------------------------------------------------------ *)
(** Facts. *)

Lemma bind_ok {A B} (r : result A) (f : A -> result B) b :
  bind r f = Ok b -> exists a, r = Ok a /\ f a = Ok b.
Proof. destruct r as [a|e]; simpl; [intros H; exists a; auto | discriminate]. Qed.

Lemma py_assert_ok b u : py_assert b = Ok u -> b = true.
Proof. destruct b; simpl; [auto | discriminate]. Qed.

Lemma of_option_ok {A} (o : option A) a : of_option o = Ok a -> o = Some a.
Proof. destruct o; simpl; congruence. Qed.

Lemma mem_In x xs : mem x xs = true <-> In x xs.
Proof.
  unfold mem. rewrite existsb_exists. split.
  - intros (y & Hy & E). apply String.eqb_eq in E. subst; auto.
  - intros H. exists x. split; auto. apply String.eqb_refl.
Qed.

Lemma mem_false x xs : mem x xs = false <-> ~ In x xs.
Proof. rewrite <- mem_In. destruct (mem x xs); split; congruence. Qed.

Lemma list_eqb_eq xs ys : list_eqb xs ys = true <-> xs = ys.
Proof.
  revert ys; induction xs as [|x xs IH]; intros [|y ys]; simpl; try (split; congruence).
  rewrite andb_true_iff, String.eqb_eq, IH. split; [intros [-> ->]; auto | intros [= -> ->]; auto].
Qed.

Lemma count_In x xs : In x xs <-> 0 < count x xs.
Proof.
  induction xs as [|y ys IH]; simpl; [split; [tauto | lia] |].
  destruct (String.eqb_spec y x) as [->|N]; [split; intros; [lia | auto] |].
  simpl. rewrite <- IH. split; [intros [E|E]; [congruence | auto] | auto].
Qed.

Lemma count_app x xs ys : count x (xs ++ ys) = count x xs + count x ys.
Proof. induction xs as [|y l IH]; simpl; auto. rewrite IH. lia. Qed.

Lemma index_of_nth x xs n : index_of x xs = Some n -> nth_error xs n = Some x.
Proof.
  revert n; induction xs as [|y ys IH]; simpl; intros n; [discriminate |].
  destruct (String.eqb_spec y x) as [->|N].
  - intros [= <-]; reflexivity.
  - destruct (index_of x ys) as [m|]; simpl; [intros [= <-]; simpl; auto | discriminate].
Qed.

Lemma set_nth_length {A} n (v : A) l : length (set_nth n v l) = length l.
Proof. revert n; induction l as [|x l IH]; intros [|n]; simpl; auto. Qed.

Lemma map_set_nth {A B} (f : A -> B) n v l : map f (set_nth n v l) = set_nth n (f v) (map f l).
Proof. revert n; induction l as [|x l IH]; intros [|n]; simpl; auto. rewrite IH; auto. Qed.

Lemma set_nth_app {A} n (v : A) l r : n < length l -> set_nth n v (l ++ r) = set_nth n v l ++ r.
Proof.
  revert n; induction l as [|x l IH]; intros [|n]; simpl; intros H; try lia; auto.
  rewrite IH by lia; auto.
Qed.

Lemma In_set_nth {A} n (v x : A) l : In x (set_nth n v l) -> x = v \/ In x l.
Proof.
  revert n; induction l as [|y l IH]; intros [|n]; simpl; auto.
  - intros [->|H]; auto.
  - intros [->|H]; auto. destruct (IH _ H); auto.
Qed.

(** [str(n)] is read back by [int]. *)
Lemma digits_of_uint d acc b :
  py_digits (list_ascii_of_string (NilEmpty.string_of_uint d)) (Z.of_nat acc) b
  = match d with Decimal.Nil => if b then Some (Z.of_nat acc) else None
            | _ => Some (Z.of_nat (Nat.of_uint_acc d acc)) end.
Proof.
  revert acc b.
  assert (T : forall a, Nat.tail_mul 10 a = 10 * a) by (intros; rewrite Nat.tail_mul_spec; auto).
  induction d as [|d IH|d IH|d IH|d IH|d IH|d IH|d IH|d IH|d IH|d IH]; intros acc b;
    [reflexivity|..];
    cbn [NilEmpty.string_of_uint list_ascii_of_string py_digits];
    match goal with |- context [digit_of ?c] =>
      let v := eval compute in (digit_of c) in change (digit_of c) with v end;
    cbn [Nat.of_uint_acc]; rewrite T;
    match goal with |- py_digits _ ?z true = Some (Z.of_nat (Nat.of_uint_acc d ?n)) =>
      replace z with (Z.of_nat n) by lia end; rewrite IH; destruct d; reflexivity.
Qed.

Lemma uint_string_shape d : exists c s, NilZero.string_of_uint d = String c s
  /\ is_space c = false /\ Ascii.eqb c "-"%char = false /\ Ascii.eqb c "+"%char = false.
Proof. destruct d; simpl; eexists _, _; repeat split; reflexivity. Qed.

Lemma uint_string_nospace d c :
  In c (list_ascii_of_string (NilZero.string_of_uint d)) -> is_space c = false.
Proof.
  assert (E : forall d c, In c (list_ascii_of_string (NilEmpty.string_of_uint d)) -> is_space c = false).
  { clear. intros d; induction d; simpl; intros c H; [tauto|..];
      destruct H as [<-|H]; [reflexivity | auto | reflexivity | auto | reflexivity | auto | reflexivity | auto
       | reflexivity | auto | reflexivity | auto | reflexivity | auto | reflexivity | auto | reflexivity | auto | reflexivity | auto]. }
  destruct d; [simpl; intros [<-|[]]; reflexivity | apply (E (Decimal.D0 d)) | apply (E (Decimal.D1 d)) | apply (E (Decimal.D2 d))
   | apply (E (Decimal.D3 d)) | apply (E (Decimal.D4 d)) | apply (E (Decimal.D5 d)) | apply (E (Decimal.D6 d)) | apply (E (Decimal.D7 d))
   | apply (E (Decimal.D8 d)) | apply (E (Decimal.D9 d)) ].
Qed.

Lemma lstrip_nospace l : (forall c, In c l -> is_space c = false) -> lstrip l = l.
Proof. destruct l as [|c l]; simpl; auto. intros H. rewrite (H c); auto. Qed.

Lemma strip_nospace l : (forall c, In c l -> is_space c = false) -> strip l = l.
Proof.
  intros H. unfold strip. rewrite (lstrip_nospace l) by auto.
  rewrite lstrip_nospace, rev_involutive; auto.
  intros c Hc. apply H. rewrite in_rev; auto.
Qed.

Lemma py_int_str_nat n : py_int (str_nat n) = Some (Z.of_nat n).
Proof.
  unfold py_int, str_nat.
  rewrite strip_nospace by apply uint_string_nospace.
  destruct (uint_string_shape (Nat.to_uint n)) as (c & s & E & _ & E1 & E2).
  rewrite E. cbn [list_ascii_of_string]. rewrite E1, E2.
  change (c :: list_ascii_of_string s) with (list_ascii_of_string (String c s)). rewrite <- E.
  pose proof (DecimalNat.Unsigned.of_to n) as R. unfold Nat.of_uint in R.
  destruct (Nat.to_uint n) as [|d|d|d|d|d|d|d|d|d|d] eqn:D.
  { simpl in R. subst n. discriminate D. }
  all: match type of D with _ = ?u =>
         change (NilZero.string_of_uint u) with (NilEmpty.string_of_uint u);
         pose proof (digits_of_uint u 0 false) as H end;
       cbv iota in H; rewrite R in H; exact H.
Qed.

Lemma str_nat_inj n m : str_nat n = str_nat m -> n = m.
Proof.
  intros H. pose proof (py_int_str_nat n) as A. rewrite H, py_int_str_nat in A.
  injection A; lia.
Qed.
