(** Specification of the memory instructions of the EVM used by the repair: a
    stack of words and a memory of bytes. *)
From Verif Require Import Base Lexical AsmModel MachineSpec.
Open Scope string_scope. Open Scope list_scope. Open Scope Z_scope.

Definition memory := Z -> Z.
(** MSTORE writes the 32 bytes of a word, most significant first; MLOAD reads
    32 bytes. *)
Definition mstore (a v : Z) (m : memory) : memory :=
  fun i => if (a <=? i) && (i <? a + 32) then (v / 256 ^ (31 - (i - a))) mod 256 else m i.
Fixpoint bytes_at (n : nat) (a : Z) (m : memory) (acc : Z) : Z :=
  match n with O => acc | S n' => bytes_at n' (a + 1) m (acc * 256 + m a) end.
Definition mload (a : Z) (m : memory) : Z := bytes_at 32 a m 0.
Definition bytes (m : memory) : Prop := forall i, 0 <= m i < 256.
Definition words (s : list Z) : Prop := Forall (fun v => 0 <= v < 2 ^ 256) s.

(** One instruction, given by its text: PUSH with a hexadecimal number, MLOAD,
    MSTORE, DUP1 to DUP16. *)
Definition run_id (id : string) (st : list Z * memory) : option (list Z * memory) :=
  let '(s, m) := st in
  if startswith "PUSH " id then match hex_value (upper (sdrop 5 id)) with Some z => Some (z :: s, m) | None => None end
  else if String.eqb id "MLOAD" then match s with a :: s' => Some (mload a m :: s', m) | [] => None end
  else if String.eqb id "MSTORE" then match s with a :: v :: s' => Some (s', mstore a v m) | _ => None end
  else if startswith "DUP" id then
    match py_int (sdrop 3 id) with
    | Some n => if (1 <=? n) && (n <=? 16) then match nth_error s (Z.to_nat (n - 1)) with Some v => Some (v :: s, m) | None => None end else None
    | None => None
    end
  else None.
Fixpoint run (ids : list string) (st : list Z * memory) : option (list Z * memory) :=
  match ids with
  | [] => Some st
  | id :: ids' => match run_id id st with Some st' => run ids' st' | None => None end
  end.
