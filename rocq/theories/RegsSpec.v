(** Values kept in words of memory (registers): the code for the accesses, and
    which register holds which variable. *)
From Verif Require Import Base Lexical SymExecModel AsmModel MachineSpec FootprintSpec DepsModel SpecModel SpecSem BlockSpec UtilModel WebModel RegModel.
Open Scope string_scope. Open Scope list_scope.

(** src/reparation/tree_scan.py:133-153: the ids with an access to memory in
    place of each "VGET" and "VSET".  [rs] has the address of each access, in
    order; "DUP-VSET(x,n)" is the duplication followed by "VSET(x)". *)
Fixpoint lowered (ids : list string) (rs : list Z) : list string :=
  match ids with
  | [] => []
  | id :: ids' =>
      match vget_arg id, vset_arg id, rs with
      | Some _, _, r :: rs' => emit_vget (hex_drop2 r) ++ lowered ids' rs'
      | None, Some _, r :: rs' => emit_vset (hex_drop2 r) ++ lowered ids' rs'
      | _, _, _ => id :: lowered ids' rs
      end
  end.

(** Which variables are in which registers, from the beginning of the ids to
    their end; [None] if a variable is fetched from a register that does not
    have it. *)
Definition held := list (Z * string).
Definition held_set (r : Z) (x : string) (h : held) : held := (r, x) :: filter (fun p => negb (fst p =? r)%Z) h.
Fixpoint track (ids : list string) (rs : list Z) (h : held) : option held :=
  match ids with
  | [] => Some h
  | id :: ids' =>
      match vget_arg id, vset_arg id, rs with
      | Some x, _, r :: rs' => if existsb (fun p => (fst p =? r)%Z && String.eqb (snd p) x) h then track ids' rs' h else None
      | None, Some x, r :: rs' => track ids' rs' (held_set r x h)
      | None, None, _ => track ids' rs h
      | _, _, [] => None
      end
  end.

(** The bytes of a register, and of the registers of a list. *)
Definition register_has (r : Z) (l : place) : Prop := match l with Byte b => (r <= b < r + 32)%Z | _ => False end.
Definition in_registers (R : list Z) (l : place) : Prop := exists r, In r R /\ register_has r l.
Definition apart (R : list Z) : Prop := forall r r', In r R -> In r' R -> r <> r' -> (r + 32 <= r' \/ r' + 32 <= r)%Z.

(** What the machine does when a word is written in or read from a register:
    [load r w] is the word in the register [r] when the state is [w]. *)
Record register_ops {V LV} (sem : semantics V place LV) (load : Z -> (place -> LV) -> V) (R : list Z) : Prop := {
  ro_apart : apart R;
  ro_address : forall r, In r R -> (0 <= r)%Z;
  ro_load : forall r w, In r R -> prim sem "MLOAD" None [word_of_Z sem r] w = ([load r w], w);
  ro_store : forall r v w, In r R ->
    fst (prim sem "MSTORE" None [word_of_Z sem r; v] w) = [] /\
    load r (snd (prim sem "MSTORE" None [word_of_Z sem r; v] w)) = v /\
    forall l, ~ register_has r l -> snd (prim sem "MSTORE" None [word_of_Z sem r; v] w) l = w l;
  ro_bytes : forall r w w', In r R -> (forall l, register_has r l -> w l = w' l) -> load r w = load r w';
  ro_arity : R <> [] -> prim_arity sem "MLOAD" None = 1 /\ prim_arity sem "MSTORE" None = 2
}.

(** No instruction of the block accesses the words of the registers. *)
Definition block_spares {V LV} (sem : semantics V place LV) (val : V -> Z) (R : list Z) (instrs : list cins) (e : string -> V) (w : place -> LV) : Prop :=
  forall pre i post, instrs = pre ++ i :: post -> forall l, in_registers R l ->
    ~ evm_depends (c_op i) (map val (map (aval sem (fst (exec_cfg sem pre (e, w)))) (c_in i))) l.
