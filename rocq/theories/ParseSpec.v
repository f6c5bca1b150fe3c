(** Specification side of C58: what a Yul CFG in JSON does, one instruction at a
    time, and on which files the claim is made.  Nothing of the parser is used;
    the data types of the file are those of ParseModel.v. *)
From Verif Require Import Base Lexical SymExecModel AsmModel DepsModel SpecModel UtilModel LiveModel CfgModel JumpModel ObjSem ParseModel.
Open Scope string_scope. Open Scope list_scope.

(** ** The format *)
Definition operation (i : jinstr) : string := match ji_op i with Some s => s | None => "" end.
Definition listed (l : option (list string)) : list string := match l with Some l => l | None => [] end.
(** The last element of "in" is the first operand. *)
Definition operands (i : jinstr) : list string := rev (listed (ji_in i)).
Definition results (i : jinstr) : list string := listed (ji_out i).
Definition jinstrs (b : jsblock) : list jinstr := match js_instrs b with Some l => l | None => [] end.

(** The blocks of the main code ([None]) or of a function, and where it starts:
    the main code with its first block, a function with the one it names. *)
Definition jblocks (o : jobject) (c : option string) : list jsblock :=
  match c with
  | None => match jo_blocks o with Some bs => bs | None => [] end
  | Some f => match lookup f (jo_functions o) with Some k => jf_blocks k | None => [] end
  end.
Definition has_id (x : string) (b : jsblock) : bool := match js_id b with Some y => String.eqb y x | None => false end.
Definition jblock_at (o : jobject) (c : option string) (x : string) : option jsblock := find (has_id x) (jblocks o c).
Definition jentry (o : jobject) (c : option string) : option string :=
  match c with
  | None => match jblocks o None with b :: _ => js_id b | [] => None end
  | Some f => option_map jf_entry (lookup f (jo_functions o))
  end.
(** Where a block may continue. *)
Definition continues (x : jexit) : list string :=
  match jx_type x with
  | Some t => if String.eqb t "Jump" then firstn 1 (jx_targets x) else if String.eqb t "ConditionalJump" then firstn 2 (jx_targets x) else []
  | None => []
  end.
Inductive jreached (o : jobject) (c : option string) : string -> Prop :=
| jr_entry s : jentry o c = Some s -> jreached o c s
| jr_step a b x t : jreached o c a -> jblock_at o c a = Some b -> js_exit b = Some x -> In t (continues x) -> jreached o c t.

(** ** Execution *)
Section Meaning.
Context {V W : Type}.
(** What an operation of a component does, given its literals, operands and the
    world; the words of literals; the words that count as true. *)
Record jwords := { jw_do : option string -> string -> option (list string) -> list V -> W -> list V * W; jw_word : string -> V; jw_truth : V -> bool }.
Variable D : jwords.
Definition jvalue (e : @vars V) (x : string) : option V := if startswith "0x" x then Some (jw_word D x) else e x.
Fixpoint jvalues (e : vars) (xs : list string) : option (list V) :=
  match xs with
  | [] => Some []
  | x :: xs' => match jvalue e x, jvalues e xs' with Some v, Some vs => Some (v :: vs) | _, _ => None end
  end.
(** A suspended call. *)
Record jcall := { jp_comp : option string; jp_block : string; jp_rest : list jinstr; jp_outs : list string; jp_vars : @vars V }.
Inductive jstate :=
| JDoing (c : option string) (b : string) (rest : list jinstr) (e : @vars V) (w : W) (calls : list jcall)
| JDone (op : string) (args : list V) (w : W).

(** The phi functions come first and are evaluated together; the k-th argument
    belongs to the k-th entry. *)
Fixpoint jphis (l : list jinstr) : list jinstr * list jinstr :=
  match l with
  | i :: l' => if String.eqb (operation i) "PhiFunction" then let (p, r) := jphis l' in (i :: p, r) else ([], l)
  | [] => ([], [])
  end.
Fixpoint jphi_values (e : vars) (k : nat) (ps : list jinstr) : option (list V) :=
  match ps with
  | [] => Some []
  | p :: ps' => match nth_error (listed (ji_in p)) k with
                | Some a => match jvalue e a, jphi_values e k ps' with Some v, Some vs => Some (v :: vs) | _, _ => None end
                | None => None
                end
  end.
Definition jarrive (b : jsblock) (from : option string) (e : vars) : option (list jinstr * vars) :=
  match jphis (jinstrs b) with
  | ([], rest) => Some (rest, e)
  | (ps, rest) =>
      match from with
      | Some f => match index_of f (js_entries b) with
                  | Some k => option_map (fun vs => (rest, assign e (flat_map results ps) vs)) (jphi_values e k ps)
                  | None => None
                  end
      | None => None
      end
  end.
Definition jgoto (o : jobject) (c from : option string) (to : option string) (e : vars) (w : W) (calls : list jcall) : option jstate :=
  match to with
  | Some b => match jblock_at o c b with
              | Some blk => option_map (fun re => JDoing c b (fst re) (snd re) w calls) (jarrive blk from e)
              | None => None
              end
  | None => None
  end.
(** After the last instruction: the first target of a conditional jump is taken
    if the condition is false, the second one if it is true. *)
Definition jleave (o : jobject) (c : option string) (b : string) (x : jexit) (e : vars) (w : W) (calls : list jcall) : option jstate :=
  let is t := match jx_type x with Some t' => String.eqb t' t | None => false end in
  if is "Jump" then jgoto o c (Some b) (nth_error (jx_targets x) 0) e w calls
  else if is "ConditionalJump" then
    match jx_cond x with
    | Some y => match jvalue e y with
                | Some v => jgoto o c (Some b) (nth_error (jx_targets x) (if jw_truth D v then 1 else 0)) e w calls
                | None => None
                end
    | None => None
    end
  else if is "MainExit" then Some (JDone "STOP" [] w)
  else if is "FunctionReturn" then
    (* the i-th result of the call is the i-th value returned *)
    match jvalues e (listed (jx_returns x)), calls with
    | Some vs, k :: calls' =>
        if Nat.eqb (length (jp_outs k)) (length vs)
        then Some (JDoing (jp_comp k) (jp_block k) (jp_rest k) (assign (jp_vars k) (jp_outs k) vs) w calls')
        else None
    | _, _ => None
    end
  else None.
Definition jstep (o : jobject) (s : jstate) : option jstate :=
  match s with
  | JDone _ _ _ => None
  | JDoing c b (i :: rest) e w calls =>
      match jvalues e (operands i) with
      | None => None
      | Some args =>
          match lookup (operation i) (jo_functions o) with
          | Some k =>
              if Nat.eqb (length (jf_args k)) (length args) then
                jgoto o (Some (operation i)) None (Some (jf_entry k)) (assign (fun _ => None) (jf_args k) args) w
                  ({| jp_comp := c; jp_block := b; jp_rest := rest; jp_outs := results i; jp_vars := e |} :: calls)
              else None
          | None =>
              if mem (operation i) stopping then Some (JDone (upper (operation i)) args w)
              else let (vs, w') := jw_do D c (operation i) (ji_lits i) args w in Some (JDoing c b rest (assign e (results i) vs) w' calls)
          end
      end
  | JDoing c b [] e w calls =>
      match jblock_at o c b with
      | Some blk => match js_exit blk with Some x => jleave o c b x e w calls | None => None end
      | None => None
      end
  end.
Fixpoint jsteps (n : nat) (o : jobject) (s : jstate) : option jstate :=
  match n with O => Some s | S n' => match jstep o s with Some s' => jsteps n' o s' | None => None end end.
Definition jbegins (o : jobject) (w : W) : option jstate := jgoto o None None (jentry o None) (fun _ => None) w [].
Definition jstops (o : jobject) (w : W) (op : string) (args : list V) (w' : W) : Prop :=
  exists s n, jbegins o w = Some s /\ jsteps n o s = Some (JDone op args w').
Definition jgoes_on (o : jobject) (w : W) : Prop :=
  exists s, jbegins o w = Some s /\ forall n, exists c b rest e w' calls, jsteps n o s = Some (JDoing c b rest e w' calls).
End Meaning.
Arguments jwords : clear implicits.
Arguments jstate : clear implicits.
Arguments jcall : clear implicits.

(** ** References to other objects *)
(** The number that stands for a name: its position among the sub-objects, or a
    number of its own. *)
Definition reference (keys : list (string * nat)) (index : string -> Z) (x text : string) : Prop :=
  text = fmt_064X (match lookup x keys with Some n => Z.of_nat n | None => index x end).
(** The operation and literals that stand for a built-in function of the object
    [self] in the assembly. *)
Inductive stands_for (keys : list (string * nat)) (index : string -> Z) (self : string) : string -> option (list string) -> string -> option (list string) -> Prop :=
| sf_library l : stands_for keys index self "linkersymbol" (Some l) "pushlib" (Some l)
| sf_guard l l' : Forall2 (fun o h => exists z, py_int16 o = Some z /\ h = py_hex z) l l' -> stands_for keys index self "memoryguard" (Some l) "push" (Some l')
| sf_own_size r t : reference keys index self t -> stands_for keys index self "datasize" (Some (self :: r)) "pushsize" (Some [t])
| sf_size x r t : x <> self -> reference keys index x t -> stands_for keys index self "datasize" (Some (x :: r)) "push #[$]" (Some [t])
| sf_offset x r t : reference keys index x t -> stands_for keys index self "dataoffset" (Some (x :: r)) "push [$]" (Some [t])
| sf_copy l : stands_for keys index self "datacopy" l "codecopy" l
| sf_set l : stands_for keys index self "setimmutable" l "assignimmutable" l
| sf_load l : stands_for keys index self "loadimmutable" l "pushimmutable" l
| sf_other op l : ~ In op ["linkersymbol"; "memoryguard"; "datasize"; "dataoffset"; "datacopy"; "setimmutable"; "loadimmutable"] -> stands_for keys index self op l op l.

(** [x] is referred to by a block of the component that may be executed. *)
Definition refers (o : jobject) (c : option string) (x : string) : Prop :=
  exists b blk i r, jreached o c b /\ jblock_at o c b = Some blk /\ In i (jinstrs blk) /\ In (operation i) ["datasize"; "dataoffset"] /\ ji_lits i = Some (x :: r).
Record numbered (keys : list (string * nat)) (o : jobject) (c : option string) (index : string -> Z) : Prop := {
  nb_range : forall x, refers o c x -> lookup x keys = None -> exists n, index x = (2 ^ 64 - 1 - Z.of_nat n)%Z;
  nb_own : forall x y, refers o c x -> refers o c y -> lookup x keys = None -> lookup y keys = None -> index x = index y -> x = y
}.
(** The words of the parsed object mean what the operations of the file mean.
    With [builtin] the operations are kept. *)
Record agrees {V W} (builtin : bool) (keys : list (string * nat)) (self : string) (index : option string -> string -> Z) (D : jwords V W) (M : words V W) : Prop := {
  ag_do : forall c op l i args w, op <> "PUSH [tag]" ->
    (if builtin then op = li_op i /\ l = li_lits i else stands_for keys (index c) self op l (li_op i) (li_lits i)) -> jw_do D c op l args w = o_do M i args w;
  ag_word : forall x, jw_word D x = o_word M x;
  ag_truth : forall v, jw_truth D v = o_truth M v
}.

(** ** The files covered *)
(** Names that functions do not have. *)
Definition taken : list string :=
  ["PhiFunction"; "functionReturn"; "linkersymbol"; "memoryguard"; "datasize"; "dataoffset"; "datacopy"; "setimmutable"; "loadimmutable";
   "pushlib"; "push"; "pushsize"; "push #[$]"; "push [$]"; "codecopy"; "assignimmutable"; "pushimmutable"].
Record literals_ok (keys : list (string * nat)) (op : string) (l : option (list string)) : Prop := {
  lk_library : op = "linkersymbol" -> l <> None;
  lk_guard : op = "memoryguard" -> exists l', l = Some l' /\ Forall (fun o => py_int16 o <> None) l';
  lk_reference : In op ["datasize"; "dataoffset"] -> exists x r, l = Some (x :: r) /\ (lookup x keys <> None \/ find_dot x <> Some 1)
}.
Record jinstr_ok (builtin : bool) (keys : list (string * nat)) (functions : list string) (i : jinstr) : Prop := {
  io_fields : ji_in i <> None /\ ji_op i <> None /\ ji_out i <> None;
  io_names : operation i <> "functionReturn" /\ operation i <> "PUSH [tag]" /\ startswith "verbatim" (operation i) = false;
  io_literal : operation i = "LiteralAssignment" -> operands i <> [] /\ results i <> [];
  (* several results: only those of functions with an underscore in the name *)
  io_results : length (results i) <= 1 \/ (In (operation i) functions /\ contains "_" (operation i) = true);
  io_literals : builtin = false -> literals_ok keys (operation i) (ji_lits i)
}.
Inductive jexit_ok (ids : list string) (x : jexit) : Prop :=
| xo_jump t ts : jx_type x = Some "Jump" -> jx_targets x = t :: ts -> incl (jx_targets x) ids -> jexit_ok ids x
| xo_cond f t ts y : jx_type x = Some "ConditionalJump" -> jx_targets x = f :: t :: ts -> jx_cond x = Some y -> incl (jx_targets x) ids -> jexit_ok ids x
| xo_end t : jx_type x = Some t -> In t ["Terminated"; "MainExit"; ""] -> incl (jx_targets x) ids -> jexit_ok ids x
| xo_return vs : jx_type x = Some "FunctionReturn" -> jx_returns x = Some vs -> incl (jx_targets x) ids -> jexit_ok ids x.
Record jblock_ok (builtin : bool) (keys : list (string * nat)) (functions ids : list string) (b : jsblock) : Prop := {
  bo_id : js_id b <> None;
  bo_type : js_type b <> "FunctionReturn";
  bo_instrs : exists phis rest, js_instrs b = Some (phis ++ rest) /\ Forall (fun i => operation i = "PhiFunction" /\ length (results i) = 1) phis
    /\ Forall (fun i => operation i <> "PhiFunction") rest /\ Forall (jinstr_ok builtin keys functions) (phis ++ rest);
  bo_exit : exists x, js_exit b = Some x /\ jexit_ok ids x
}.
Definition ids_of (bs : list jsblock) : list string := flat_map (fun b => match js_id b with Some x => [x] | None => [] end) bs.
Record jcomponent_ok (builtin : bool) (keys : list (string * nat)) (functions : list string) (entry : option string) (bs : list jsblock) : Prop := {
  co_blocks : Forall (jblock_ok builtin keys functions (ids_of bs)) bs;
  co_ids : NoDup (ids_of bs);
  (* it starts with the first block, called Block0 *)
  co_start : exists s, hd_error (ids_of bs) = Some s /\ entry = Some s /\ (builtin = false -> s = "Block0")
}.
Record jobject_ok (builtin : bool) (keys : list (string * nat)) (o : jobject) : Prop := {
  jk_main : jo_blocks o <> None /\ jcomponent_ok builtin keys (map fst (jo_functions o)) (jentry o None) (jblocks o None);
  jk_functions : forall f k, In (f, k) (jo_functions o) -> jcomponent_ok builtin keys (map fst (jo_functions o)) (Some (jf_entry k)) (jf_blocks k);
  jk_names : NoDup (map fst (jo_functions o)) /\ forall f, In f (map fst (jo_functions o)) -> ~ In f taken
}.
(** The parsed object does what the object of the file does. *)
Definition same_behaviour {V W} (D : jwords V W) (M : words V W) (o : jobject) (ob : cobject) : Prop :=
  forall w, (forall op args w', jstops D o w op args w' <-> stops M ob w op args w') /\ (jgoes_on D o w <-> goes_on M ob w).

(** [ob] is a correct reading of the object [o] called [name]: whatever the
    operations of the file mean, if the words of the assembly mean the same, both
    do the same.  The names that are not sub-objects have numbers of their own in
    each component. *)
Definition read_as (builtin : bool) (keys : list (string * nat)) (name : string) (o : jobject) (ob : cobject) : Prop :=
  exists index, (builtin = false -> forall c, numbered keys o c (index c))
    /\ forall V W (D : jwords V W) (M : words V W), agrees builtin keys name index D M -> same_behaviour D M o ob.

(** ** Files *)
(** The sub-objects of an object are numbered in the order of the file. *)
Definition sub_numbers (sub : option jcfg) : list (string * nat) :=
  match sub with Some (JCfg os) => combine (map (fun x => fst (fst x)) os) (seq 0 (length os)) | None => [] end.
Inductive file_ok (builtin : bool) : jcfg -> Prop :=
| fo os : os <> [] -> (forall name o sub, In (name, o, sub) os -> jobject_ok builtin (sub_numbers sub) o /\ forall c, sub = Some c -> file_ok builtin c) -> file_ok builtin (JCfg os).
(** The same objects at the same places, each read correctly. *)
Inductive file_read (builtin : bool) : jcfg -> pcfg -> Prop :=
| fr os ps : length os = length ps -> (forall n name o sub, nth_error os n = Some (name, o, sub) ->
    exists ob sub', nth_error ps n = Some (name, ob, sub') /\ read_as builtin (sub_numbers sub) name o ob
      /\ ((sub = None /\ sub' = None) \/ exists c p, sub = Some c /\ sub' = Some p /\ file_read builtin c p)) -> file_read builtin (JCfg os) (PCfg ps).
