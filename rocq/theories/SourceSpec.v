(** Which JSON files describe programs as solc writes them: the blocks and exits
    ([plain_file]), and variables that get their value at one place, before they
    are read ([sound_file]). *)
From Coq Require Import Relations.
From Verif Require Import Base Lexical UtilModel LiveModel CfgModel JumpModel ObjSem ParseModel ParseSpec.
From Verif Require DepsModel.
Notation lookup := UtilModel.lookup.
Open Scope string_scope. Open Scope list_scope.

Section File.
Variables (o : jobject) (c : option string).
(** Control may pass from the end of [x] to [y]. *)
Definition jedge (x y : string) : Prop := exists b e, jblock_at o c x = Some b /\ js_exit b = Some e /\ In y (continues e).
(** [y] follows [x] only, and only [y] follows [x]. *)
Definition jalone (x y : string) : Prop := jedge x y /\ (forall z, jedge x z -> z = y) /\ (forall z, jedge z y -> z = x).
(** From [x] the code ends without doing anything. *)
Inductive jruns_out (x : string) : Prop :=
| jo_here b e : jblock_at o c x = Some b -> jinstrs b = [] -> js_exit b = Some e -> continues e = [] -> jx_type e <> Some "FunctionReturn" -> jruns_out x
| jo_later b y : jblock_at o c x = Some b -> jinstrs b = [] -> jedge x y -> jruns_out y -> jruns_out x.
Definition jreturns (f : string) : Prop := exists x b e, jblock_at o (Some f) x = Some b /\ js_exit b = Some e /\ jx_type e = Some "FunctionReturn".
Definition jargs : list string := match c with Some f => match lookup f (jo_functions o) with Some k => jf_args k | None => [] end | None => [] end.
Definition jreads (x : string) : Prop := exists z b e, jblock_at o c z = Some b /\ js_exit b = Some e
  /\ ((exists i, In i (jinstrs b) /\ In x (listed (ji_in i))) \/ (jx_type e = Some "ConditionalJump" /\ jx_cond e = Some x) \/ (jx_type e = Some "FunctionReturn" /\ In x (listed (jx_returns e)))).
Definition jdefines (x : string) : Prop := In x jargs \/ exists z b i, jblock_at o c z = Some b /\ In i (jinstrs b) /\ In x (results i).
(** The instructions [rest] of a block can be reached without an instruction that
    gives a value to a variable of [X]. *)
Inductive jpoint (X : list string) : string -> list jinstr -> Prop :=
| jp_start s b rest : jentry o c = Some s -> jblock_at o c s = Some b -> jphis (jinstrs b) = ([], rest) -> jpoint X s rest
| jp_instr b i rest : jpoint X b (i :: rest) -> (forall x, In x X -> ~ In x (results i)) -> jpoint X b rest
| jp_edge b b' blk' ps rest : jpoint X b [] -> jedge b b' -> jblock_at o c b' = Some blk' -> jphis (jinstrs blk') = (ps, rest) ->
    (forall x, In x X -> ~ In x (flat_map results ps)) -> jpoint X b' rest.
Inductive jread_here : string -> list jinstr -> string -> Prop :=
| jh_instr b i rest x : In x (listed (ji_in i)) -> jread_here b (i :: rest) x
| jh_cond b blk e x : jblock_at o c b = Some blk -> js_exit blk = Some e -> jx_type e = Some "ConditionalJump" -> jx_cond e = Some x -> jread_here b [] x
| jh_phi b b' blk' k p x : jedge b b' -> jblock_at o c b' = Some blk' -> index_of b (js_entries blk') = Some k -> In p (fst (jphis (jinstrs blk'))) -> nth_error (listed (ji_in p)) k = Some x -> jread_here b [] x
| jh_return b blk e x : jblock_at o c b = Some blk -> js_exit blk = Some e -> jx_type e = Some "FunctionReturn" -> In x (listed (jx_returns e)) -> jread_here b [] x.
Notation functions := (map fst (jo_functions o)).
Record sound_component : Prop := {
  (* no jump to the first block, and no cycle of blocks without another way in or out *)
  sc_start : forall s x, jentry o c = Some s -> ~ jedge x s;
  sc_chain : forall a b, clos_trans string jalone a b -> ~ jedge b a;
  (* phi functions have an argument for each entry, and there are several *)
  sc_phis : forall x b i, jblock_at o c x = Some b -> In i (jinstrs b) -> operation i = "PhiFunction" -> length (listed (ji_in i)) = length (js_entries b) /\ 2 <= length (js_entries b);
  sc_entries : forall x b, jblock_at o c x = Some b -> NoDup (js_entries b);
  (* after a call that returns there is something left to do *)
  sc_calls : forall x b pre i y, jblock_at o c x = Some b -> jinstrs b = pre ++ [i] -> In (operation i) functions -> jreturns (operation i) -> jedge x y -> ~ jruns_out y;
  sc_last : forall x b e pre i, jblock_at o c x = Some b -> js_exit b = Some e -> continues e = [] -> jx_type e <> Some "FunctionReturn" -> jinstrs b = pre ++ [i] -> In (operation i) functions -> ~ jreturns (operation i);
  (* functions do not end with an empty block *)
  sc_ends : forall f x b e, c = Some f -> jblock_at o c x = Some b -> js_exit b = Some e -> jinstrs b = [] -> continues e = [] -> jx_type e = Some "FunctionReturn";
  (* literals can be read, and there is no "invalid" *)
  sc_literals : forall x, jreads x -> prefix "0x" x = true -> DepsModel.py_int16 x <> None;
  sc_invalid : forall x b i, jblock_at o c x = Some b -> In i (jinstrs b) -> operation i <> "invalid";
  (* what is read has a value, given at one place and on every path *)
  sc_scoped : forall x, jreads x -> prefix "0x" x = false -> jdefines x;
  sc_once : NoDup (jargs ++ flat_map (fun b => flat_map results (jinstrs b)) (jblocks o c));
  sc_names : forall x, jdefines x -> prefix "0x" x = false;
  sc_strict : forall b rest x, jread_here b rest x -> prefix "0x" x = false -> ~ In x jargs -> ~ jpoint [x] b rest;
  (* calls have as many arguments and results as the function *)
  sc_arity : forall x b i k, jblock_at o c x = Some b -> In i (jinstrs b) -> lookup (operation i) (jo_functions o) = Some k ->
    length (jf_args k) = length (listed (ji_in i))
    /\ forall x' b' e', jblock_at o (Some (operation i)) x' = Some b' -> js_exit b' = Some e' -> jx_type e' = Some "FunctionReturn" -> length (listed (jx_returns e')) = length (results i);
  (* nothing follows the call of a function that never returns, and its results are not used *)
  sc_stuck : forall x b e p i q, jblock_at o c x = Some b -> js_exit b = Some e -> jinstrs b = p ++ i :: q -> In (operation i) functions -> ~ jreturns (operation i) ->
    q = [] /\ continues e = [] /\ jx_type e <> Some "FunctionReturn" /\ forall y, In y (results i) -> ~ jreads y
}.
End File.

(** Calls in the file. *)
Definition jcall_at (o : jobject) (f : string) (c : option string) (z : string) (n : nat) : Prop := exists b i, jblock_at o c z = Some b /\ nth_error (jinstrs b) n = Some i /\ operation i = f.
Definition jcalled_once (o : jobject) (f : string) : Prop := In f (map fst (jo_functions o)) /\ exists c z n, jcall_at o f c z n /\ forall c' z' n', jcall_at o f c' z' n' -> c' = c /\ z' = z /\ n' = n.
Inductive jcalls (o : jobject) : string -> string -> Prop :=
| jcalls_here p f z n : jcall_at o f (Some p) z n -> In f (map fst (jo_functions o)) -> jcalls o p f
| jcalls_trans p q f : jcalls o p q -> jcalls o q f -> jcalls o p f.
(** Each function that is called, once; a function before those that call it,
    unless they call each other. *)
Record jorder (o : jobject) (order : list string) : Prop := {
  jo_once : NoDup order;
  jo_called : forall f, In f order <-> In f (map fst (jo_functions o)) /\ exists c z n, jcall_at o f c z n;
  jo_sorted : forall f p z n, In f order -> In p order -> jcall_at o f (Some p) z n -> ~ jcalls o f p -> exists l1 l2 l3, order = l1 ++ f :: l2 ++ p :: l3
}.
(** No function called once calls itself. *)
Definition no_recursion (o : jobject) : Prop := forall f, jcalled_once o f -> ~ jcalls o f f.
