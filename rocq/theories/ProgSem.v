(** Specification side of the whole translation: what a program given by
    control-flow graphs means, and what assembly code with jumps means.  Nothing
    here mentions stack layouts or how the code is generated. *)
From Verif Require Import Base Lexical SymExecModel AsmModel MachineSpec DepsModel SpecSem UtilModel.
Open Scope string_scope. Open Scope list_scope.

(** A block: phi functions (result, arguments in the order of [p_entries]), the
    instructions, the instruction that ends the block if there is one, and
    where control goes next. *)
Record pblock := {
  p_phis : list (string * list string);
  p_entries : list string;
  p_instrs : list cins;
  p_last : option cins;
  p_type : string;
  p_jump_to : option string;
  p_falls_to : option string
}.
(** A function, or the main code of an object. *)
Record component := { k_params : list string; k_start : string; k_blocks : list (string * pblock) }.
Record program := { g_main : component; g_functions : list (string * component) }.
(** [None] is the main code. *)
Definition component_of (g : program) (c : option string) : option component :=
  match c with None => Some (g_main g) | Some f => lookup f (g_functions g) end.
Definition block_of (g : program) (c : option string) (b : string) : option pblock :=
  match component_of g c with Some k => lookup b (k_blocks k) | None => None end.

Section Meaning.
Context {V Loc LV : Type}.
Variable sem : semantics V Loc LV.
(** Which words a conditional jump takes as true, and the values of variables
    nobody has assigned yet. *)
Variable truth : V -> bool.
Variable blank : string -> V.

(** A suspended call: the component and the block that made it, with its variables. *)
Record frame := { fr_comp : option string; fr_block : string; fr_env : string -> V }.
Inductive config :=
| Run (c : option string) (from : option string) (b : string) (e : string -> V) (w : Loc -> LV) (frames : list frame)
| Halt (op : string) (args : list V) (w : Loc -> LV).

(** Phi functions read all their arguments before any of them is assigned. *)
Definition phi_args (blk : pblock) (from : option string) : option (list string) :=
  match p_phis blk with
  | [] => Some []
  | _ => match from with
         | Some b => match index_of b (p_entries blk) with
                     | Some k => fold_right (fun p r => match nth_error (snd p) k, r with Some a, Some l => Some (a :: l) | _, _ => None end)
                                   (Some []) (p_phis blk)
                     | None => None
                     end
         | None => None
         end
  end.
Definition enter (blk : pblock) (from : option string) (e : string -> V) : option (string -> V) :=
  option_map (fun args => bind_vars e (map fst (p_phis blk)) (map (aval sem e) args)) (phi_args blk from).

Definition go (c : option string) (b : string) (to : option string) (e : string -> V) (w : Loc -> LV) (frames : list frame) : option config :=
  option_map (fun b' => Run c (Some b) b' e w frames) to.

(** One block.  A call passes its arguments but the first one (where the
    function is), a return gives back its arguments but the first one (where the
    caller is): control follows the graph and the suspended calls.  [None] is an
    error of the program. *)
Definition cstep (g : program) (s : config) : option config :=
  match s with
  | Halt _ _ _ => None
  | Run c from b e w frames =>
      match block_of g c b with
      | None => None
      | Some blk =>
          match enter blk from e with
          | None => None
          | Some e1 =>
              let (e2, w2) := exec_cfg sem (p_instrs blk) (e1, w) in
              match p_last blk with
              | None => if String.eqb (p_type blk) "mainExit" then Some (Halt "STOP" [] w2) else go c b (p_falls_to blk) e2 w2 frames
              | Some i =>
                  match lookup (c_op i) (g_functions g) with
                  | Some k =>
                      let args := map (aval sem e2) (tl (c_in i)) in
                      if (length (k_params k) <=? length args)%nat then
                        Some (Run (Some (c_op i)) None (k_start k) (bind_vars blank (k_params k) args) w2
                                ({| fr_comp := c; fr_block := b; fr_env := e2 |} :: frames))
                      else None
                  | None =>
                      if String.eqb (c_op i) "functionReturn" then
                        match frames with
                        | fr :: frames' =>
                            match block_of g (fr_comp fr) (fr_block fr) with
                            | Some caller =>
                                let values := map (aval sem e2) (tl (c_in i)) in
                                let outs := match p_last caller with Some call => c_out call | None => [] end in
                                if (length outs =? length values)%nat then
                                  go (fr_comp fr) (fr_block fr) (p_falls_to caller) (bind_vars (fr_env fr) outs values) w2 frames'
                                else None
                            | None => None
                            end
                        | [] => None
                        end
                      else if String.eqb (c_op i) "JUMP" then go c b (p_jump_to blk) e2 w2 frames
                      else if String.eqb (c_op i) "JUMPI" then
                        match c_in i with
                        | [_; cond] => go c b (if truth (aval sem e2 cond) then p_jump_to blk else p_falls_to blk) e2 w2 frames
                        | _ => None
                        end
                      else Some (Halt (upper (c_op i)) (map (aval sem e2) (c_in i)) w2)
                  end
              end
          end
      end
  end.

(** [n] blocks. *)
Fixpoint csteps (n : nat) (g : program) (s : config) : option config :=
  match n with O => Some s | S n' => match cstep g s with Some s' => csteps n' g s' | None => None end end.

(* ---------------------------------------------------------------- *)
(** Code: the position of the next item and the machine, or the end. *)
Inductive running :=
| At (pc : nat) (m : mstate V Loc LV)
| Stopped (op : string) (args : list V) (w : Loc -> LV).

Definition halting : list string := ["STOP"; "RETURN"; "REVERT"; "SELFDESTRUCT"; "INVALID"].
Definition control_names : list string := ["tag"; "JUMPDEST"; "JUMP"; "JUMPI"] ++ halting.

Definition tag_of_item (a : asm) : option Z :=
  if String.eqb (a_name a) "tag" then match a_value a with Some v => py_int v | None => None end else None.
Fixpoint find_tag (t : Z) (code : list asm) : option nat :=
  match code with
  | [] => None
  | a :: code' => match tag_of_item a with
                  | Some z => if (z =? t)%Z then Some 0 else option_map S (find_tag t code')
                  | None => option_map S (find_tag t code')
                  end
  end.

(** The tag a word stands for. *)
Variable tag_of : V -> option Z.
Definition jump (code : list asm) (d : V) : option nat :=
  match tag_of d with Some t => find_tag t code | None => None end.
Definition with_stack (st : list V) (m : mstate V Loc LV) : mstate V Loc LV :=
  {| m_stack := st; m_world := m_world m; m_regs := m_regs m |}.

Definition estep (code : list asm) (s : running) : option running :=
  match s with
  | Stopped _ _ _ => None
  | At pc m =>
      match nth_error code pc with
      | None => None
      | Some a =>
          if mem (a_name a) ["tag"; "JUMPDEST"] then Some (At (S pc) m)
          else if String.eqb (a_name a) "JUMP" then
            match m_stack m with d :: st => option_map (fun p => At p (with_stack st m)) (jump code d) | [] => None end
          else if String.eqb (a_name a) "JUMPI" then
            match m_stack m with
            | d :: cond :: st =>
                if truth cond then option_map (fun p => At p (with_stack st m)) (jump code d) else Some (At (S pc) (with_stack st m))
            | _ => None
            end
          else if mem (a_name a) halting then
            let k := prim_arity sem (a_name a) (a_value a) in
            if (k <=? length (m_stack m))%nat then Some (Stopped (a_name a) (firstn k (m_stack m)) (m_world m)) else None
          else option_map (At (S pc)) (mstep sem a m)
      end
  end.
Fixpoint esteps (n : nat) (code : list asm) (s : running) : option running :=
  match n with O => Some s | S n' => match estep code s with Some s' => esteps n' code s' | None => None end end.
End Meaning.
Arguments config : clear implicits.
Arguments frame : clear implicits.
Arguments running : clear implicits.
