(** Specification side of C57: byte code, its listing by the Solidity compiler,
    a machine that runs byte code and one that runs assembly with tags. *)
From Verif Require Import Base Lexical SymExecModel AsmModel MachineSpec ProgSem.
Open Scope string_scope. Open Scope list_scope. Open Scope Z_scope.

(** ** Byte code *)
(** A push with the number of its data bytes, or any other operation. *)
Inductive opcode := OPush (width : nat) (value : Z) | OOp (name : string).
Definition size (o : opcode) : Z := match o with OPush n _ => Z.of_nat n + 1 | OOp _ => 1 end.
Definition bytes (code : list opcode) : Z := fold_right (fun o n => size o + n) 0 code.
(** The operation at an address; data bytes of a push are no operations. *)
Fixpoint fetch (code : list opcode) (a : Z) : option opcode :=
  match code with
  | [] => None
  | o :: code' => if a =? 0 then Some o else if a <? size o then None else fetch code' (a - size o)
  end.
(** The addresses of the jump destinations. *)
Definition is_dest (o : opcode) : bool := match o with OOp name => String.eqb name "JUMPDEST" | OPush _ _ => false end.
Fixpoint destinations (code : list opcode) (a : Z) : list Z :=
  match code with
  | [] => []
  | o :: code' => (if is_dest o then [a] else []) ++ destinations code' (a + size o)
  end.
(** Names of operations: "PUSHn" is a push, and no name extends "JUMPDEST". *)
Definition proper_name (name : string) : Prop :=
  (startswith "PUSH" name = true -> name = "PUSH0") /\ (startswith "JUMPDEST" name = true -> name = "JUMPDEST") /\ name <> "tag".
(** The listing of byte code as words: PUSHn is followed by its operand. *)
Inductive listing : list opcode -> list string -> Prop :=
| listing_nil : listing [] []
| listing_push n v text code words : (1 <= n)%nat -> hex_value text = Some v -> listing code words ->
    listing (OPush n v :: code) (("PUSH" ++ str_nat n)%string :: ("0x" ++ text)%string :: words)
| listing_op name code words : proper_name name -> listing code words -> listing (OOp name :: code) (name :: words).

(** ** Machines *)
Section Machines.
(** [World] is what operations act upon, [End] how a run can end.  An operation
    takes [arity] words and either goes on or ends.  No operation sees where in the
    code it is: PC, CODESIZE, CODECOPY and the price of instructions are outside. *)
Context {World End : Type}.
Inductive effect := Goes (results : list Z) (w : World) | Ends (e : End).
Variable arity : string -> nat.
Variable exec : string -> list Z -> World -> effect.

(** Words of the stack: numbers, or also names of tags. *)
Section Words.
Context {W : Type}.
Variable of_number : Z -> W.
Variable to_number : W -> option Z.
Fixpoint numbers (ws : list W) : option (list Z) :=
  match ws with
  | [] => Some []
  | x :: ws' => match to_number x, numbers ws' with Some z, Some l => Some (z :: l) | _, _ => None end
  end.
Inductive move := Next (st : list W) (w : World) | Jump (d : W) (st : list W) (w : World) | Over (e : End) | Stuck.
(** What an operation does to the stack, and where control goes.  Words are
    moved around freely; operations need numbers. *)
Definition moves (name : string) (st : list W) (w : World) : move :=
  if String.eqb name "JUMPDEST" then Next st w
  else if String.eqb name "PUSH0" then Next (of_number 0 :: st) w
  else if String.eqb name "JUMP" then match st with d :: st' => Jump d st' w | _ => Stuck end
  else if String.eqb name "JUMPI" then
    match st with
    | d :: c :: st' => match to_number c with Some z => if z =? 0 then Next st' w else Jump d st' w | None => Stuck end
    | _ => Stuck
    end
  else if String.eqb name "POP" then match st with _ :: st' => Next st' w | _ => Stuck end
  else if startswith "DUP" name then
    match py_int (sdrop 3 name) with
    | Some n => match nth_error st (Z.to_nat (n - 1)) with Some x => Next (x :: st) w | None => Stuck end
    | None => Stuck
    end
  else if startswith "SWAP" name then
    match py_int (sdrop 4 name), st with
    | Some n, x :: st' => match nth_error st (Z.to_nat n) with Some y => Next (set_nth (Z.to_nat n) x (set_nth 0 y st)) w | None => Stuck end
    | _, _ => Stuck
    end
  else if (length st <? arity name)%nat then Stuck
  else match numbers (firstn (arity name) st) with
       | Some args => match exec name args w with Goes results w' => Next (map of_number results ++ skipn (arity name) st) w' | Ends e => Over e end
       | None => Stuck
       end.
End Words.

(** A machine somewhere in its code, or at the end. *)
Inductive state (P W : Type) := At (p : P) (st : list W) (w : World) | Finished (e : End).
Arguments At {P W}. Arguments Finished {P W}.
Fixpoint iterate {S} (step : S -> option S) (n : nat) (s : S) : option S :=
  match n with O => Some s | S n' => match step s with Some s' => iterate step n' s' | None => None end end.

(** Byte code: a jump must go to the address of a JUMPDEST. *)
Definition bstep (code : list opcode) (s : state Z Z) : option (state Z Z) :=
  match s with
  | Finished _ => None
  | At pc st w =>
      match fetch code pc with
      | None => None
      | Some (OPush n v) => Some (At (pc + Z.of_nat n + 1) (v :: st) w)
      | Some (OOp name) =>
          match moves (fun z => z) Some name st w with
          | Next st' w' => Some (At (pc + 1) st' w')
          | Jump d st' w' => match fetch code d with Some o => if is_dest o then Some (At d st' w') else None | None => None end
          | Over e => Some (Finished e)
          | Stuck => None
          end
      end
  end.

(** Assembly: [place] is the word that a tag stands for. *)
Section Assembly.
Context {W : Type}.
Variable of_number : Z -> W.
Variable to_number : W -> option Z.
Variable place : Z -> W.
Variable tag_at : W -> option Z.
Definition astep (code : list asm) (s : state nat W) : option (state nat W) :=
  match s with
  | Finished _ => None
  | At i st w =>
      match nth_error code i with
      | None => None
      | Some a =>
          if String.eqb (a_name a) "tag" then Some (At (S i) st w)
          else if String.eqb (a_name a) "PUSH" then
            match a_value a with Some t => option_map (fun v => At (S i) (of_number v :: st) w) (hex_value t) | None => None end
          else if String.eqb (a_name a) "PUSH [tag]" then
            match a_value a with Some t => option_map (fun v => At (S i) (place v :: st) w) (py_int t) | None => None end
          else
            match moves of_number to_number (a_name a) st w with
            | Next st' w' => Some (At (S i) st' w')
            | Jump d st' w' => match tag_at d with Some t => option_map (fun k => At k st' w') (find_tag t code) | None => None end
            | Over e => Some (Finished e)
            | Stuck => None
            end
      end
  end.
End Assembly.
End Machines.
Arguments At {World End P W}. Arguments Finished {World End P W}. Arguments Goes {World End}. Arguments Ends {World End}.

(** Tags standing at given addresses: the first one at the first address, ... *)
Definition address (ds : list Z) (t : Z) : Z := nth (Z.to_nat t) ds (-1).
Fixpoint tag_of_address (ds : list Z) (k : Z) (a : Z) : option Z :=
  match ds with [] => None | d :: ds' => if d =? a then Some k else tag_of_address ds' (k + 1) a end.
(** Tags as mere names: a number is not a place in the code, and the name of a
    place is not a number. *)
Inductive word := Number (z : Z) | Label (t : Z).
Definition number_of (x : word) : option Z := match x with Number z => Some z | Label _ => None end.
Definition label_of (x : word) : option Z := match x with Label t => Some t | Number _ => None end.
(** How runs end. *)
Definition ends_with {World End P W} (step : state P W -> option (@state World End P W)) (s : state P W) (e : End) : Prop :=
  exists n, iterate step n s = Some (Finished e).
Definition runs_on {World End P W} (step : state P W -> option (@state World End P W)) (s : state P W) : Prop :=
  forall n, exists p st w, iterate step n s = Some (At p st w).

(** ** The text of the compiler *)
(** Words of a listing: not empty, without white space, none of them INVALID. *)
Definition good_word (w : string) : Prop :=
  w <> ""%string /\ (forall c, In c (list_ascii_of_string w) -> is_space c = false) /\ contains "INVALID" w = false.
(** Parts of the byte code, one after the other, separated by INVALID. *)
Fixpoint text_of (parts : list (list string)) : string :=
  match parts with
  | [] => ""
  | [p] => String.concat " " p
  | p :: parts' => String.concat " " p ++ " INVALID " ++ text_of parts'
  end%string.
