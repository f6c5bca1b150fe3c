(** Specification side: what an object (main code and functions) does, one
    instruction at a time.  Calls are ordinary instructions; nothing here mentions
    tags, jumps as instructions, or stack layouts.  [cobject], [clist], [cblock]
    and [linstr] are the data types of the program (JumpModel, CfgModel,
    LiveModel); none of the functions of the model is used. *)
From Verif Require Import Base Lexical UtilModel LiveModel CfgModel JumpModel.
From Verif Require AsmModel.
Open Scope string_scope. Open Scope list_scope.

(** Operations that stop the program. *)
Definition stopping : list string := ["return"; "revert"; "stop"; "selfdestruct"; "invalid"].

(** The blocks of the main code ([None]) or of a function. *)
Definition blocks_at (ob : cobject) (c : option string) : option clist :=
  match c with None => Some (ob_main ob) | Some f => option_map fn_blocks (lookup f (ob_functions ob)) end.
Definition block_at (ob : cobject) (c : option string) (b : string) : option cblock :=
  match blocks_at ob c with Some g => lookup b (cl_blocks g) | None => None end.

Section Meaning.
Context {V W : Type}.
(** What instructions do to the values of their arguments and to the world, the
    words that literals stand for, and the words that count as true. *)
Record words := { o_do : linstr -> list V -> W -> list V * W; o_word : string -> V; o_truth : V -> bool }.
Variable M : words.

(** Values of variables; reading a variable that has none is an error. *)
Definition vars := string -> option V.
Definition value (e : vars) (x : string) : option V := if startswith "0x" x then Some (o_word M x) else e x.
Fixpoint values (e : vars) (xs : list string) : option (list V) :=
  match xs with
  | [] => Some []
  | x :: xs' => match value e x, values e xs' with Some v, Some vs => Some (v :: vs) | _, _ => None end
  end.
Fixpoint assign (e : vars) (xs : list string) (vs : list V) : vars :=
  match xs, vs with
  | x :: xs', v :: vs' => fun y => if String.eqb y x then Some v else assign e xs' vs' y
  | _, _ => e
  end.

(** A suspended call: where it was made, what follows it, the variables that get
    the results, and the variables of the caller. *)
Record suspended := { sp_comp : option string; sp_block : string; sp_rest : list linstr; sp_outs : list string; sp_vars : vars }.
Inductive state :=
| Doing (c : option string) (b : string) (rest : list linstr) (e : vars) (w : W) (calls : list suspended)
| Done (op : string) (args : list V) (w : W).

(** Arrival at a block from [from]: its phi functions, which come first, are
    evaluated together; the instructions after them and the variables. *)
Fixpoint phis_of (l : list linstr) : list linstr * list linstr :=
  match l with
  | i :: l' => if String.eqb (li_op i) "PhiFunction" then let (p, r) := phis_of l' in (i :: p, r) else ([], l)
  | [] => ([], [])
  end.
Fixpoint phi_values (e : vars) (k : nat) (ps : list linstr) : option (list V) :=
  match ps with
  | [] => Some []
  | p :: ps' => match nth_error (li_ins p) k with
                | Some a => match value e a, phi_values e k ps' with Some v, Some vs => Some (v :: vs) | _, _ => None end
                | None => None
                end
  end.
Definition arrive (b : cblock) (from : option string) (e : vars) : option (list linstr * vars) :=
  match phis_of (cb_instrs b) with
  | ([], rest) => Some (rest, e)
  | (ps, rest) =>
      match from with
      | Some f => match index_of f (cb_entries b) with
                  | Some k => option_map (fun vs => (rest, assign e (flat_map li_outs ps) vs)) (phi_values e k ps)
                  | None => None
                  end
      | None => None
      end
  end.
Definition goto (ob : cobject) (c from : option string) (to : option string) (e : vars) (w : W) (calls : list suspended) : option state :=
  match to with
  | Some b => match block_at ob c b with
              | Some blk => option_map (fun re => Doing c b (fst re) (snd re) w calls) (arrive blk from e)
              | None => None
              end
  | None => None
  end.

(** Where control goes after the last instruction of a block. *)
Definition next_block (blk : cblock) (e : vars) : option string :=
  if String.eqb (cb_type blk) "conditional" then
    match cb_cond blk with
    | Some x => match value e x with Some v => if o_truth M v then cb_jump_to blk else cb_falls_to blk | None => None end
    | None => None
    end
  else match cb_jump_to blk with Some j => Some j | None => cb_falls_to blk end.

(** One step.  [None] is an error of the program.  The arguments of a function
    are kept in the reverse of the order in which calls pass them (both as in the
    stack, see src/parser/parser.py:169 and src/parser/cfg_instruction.py:129). *)
Definition ostep (ob : cobject) (s : state) : option state :=
  match s with
  | Done _ _ _ => None
  | Doing c b rest e w calls =>
      match rest with
      | i :: rest' =>
          match values e (li_ins i) with
          | None => None
          | Some args =>
              match lookup (li_op i) (ob_functions ob) with
              | Some k =>
                  if Nat.eqb (length (fn_args k)) (length args) then
                    goto ob (Some (li_op i)) None (cl_start (fn_blocks k)) (assign (fun _ => None) (rev (fn_args k)) args) w
                      ({| sp_comp := c; sp_block := b; sp_rest := rest'; sp_outs := li_outs i; sp_vars := e |} :: calls)
                  else None
              | None =>
                  if String.eqb (li_op i) "functionReturn" then
                    match calls with
                    | k :: calls' =>
                        if Nat.eqb (length (sp_outs k)) (length args)
                        then Some (Doing (sp_comp k) (sp_block k) (sp_rest k) (assign (sp_vars k) (sp_outs k) args) w calls')
                        else None
                    | [] => None
                    end
                  else if mem (li_op i) stopping then Some (Done (AsmModel.upper (li_op i)) args w)
                  else let (vs, w') := o_do M i args w in Some (Doing c b rest' (assign e (li_outs i) vs) w' calls)
              end
          end
      | [] =>
          match block_at ob c b with
          | Some blk => if String.eqb (cb_type blk) "mainExit" then Some (Done "STOP" [] w) else goto ob c (Some b) (next_block blk e) e w calls
          | None => None
          end
      end
  end.
Fixpoint osteps (n : nat) (ob : cobject) (s : state) : option state :=
  match n with O => Some s | S n' => match ostep ob s with Some s' => osteps n' ob s' | None => None end end.

(** The program starts with the main code, without variables.  It stops with an
    operation, its arguments and a world, or goes on forever. *)
Definition begins_at (ob : cobject) (w : W) : option state := goto ob None None (cl_start (ob_main ob)) (fun _ => None) w [].
Definition stops (ob : cobject) (w : W) (op : string) (args : list V) (w' : W) : Prop :=
  exists s n, begins_at ob w = Some s /\ osteps n ob s = Some (Done op args w').
Definition goes_on (ob : cobject) (w : W) : Prop :=
  exists s, begins_at ob w = Some s /\ forall n, exists c b rest e w' calls, osteps n ob s = Some (Doing c b rest e w' calls).
End Meaning.
Arguments words : clear implicits.
Arguments state : clear implicits.
Arguments suspended : clear implicits.

(** [ob'] does what [ob] does, whatever the instructions mean. *)
Definition does_the_same (ob ob' : cobject) : Prop :=
  forall V W (M : words V W) w,
    (forall op args w', stops M ob w op args w' -> stops M ob' w op args w') /\ (goes_on M ob w -> goes_on M ob' w).
(** The same ends and the same endless executions, for every meaning of the words. *)
Definition same_meaning (ob ob' : cobject) : Prop :=
  forall V W (M : words V W) w, (forall op args w', stops M ob w op args w' <-> stops M ob' w op args w') /\ (goes_on M ob w <-> goes_on M ob' w).
