(** Specification side of C52: what the later stages have to find for each block
    so that the code emitted does what the object given did. *)
From Verif Require Import Base Lexical SymExecModel AsmModel MachineSpec FootprintSpec DepsModel GreedyTailModel SpecModel SpecSem SpecDce BlockSpec
  UtilModel LiveModel CfgModel JumpModel EmitModel EmitSpec RegsSpec ProgSem ProgSpec JumpSpec ObjProgram.
Open Scope string_scope. Open Scope list_scope.

(** What is found for a block: the layouts before and after it, the layout before
    its last instruction, its specification and the ids that realise it, the
    addresses of the registers that the ids access, and what is in the registers
    when it is entered. *)
Record found := {
  r_initial : list string;
  r_final : list string;
  r_target : list string;
  r_spec : sfs;
  r_ids : list string;
  r_junk : bool;
  r_slots : list Z;
  r_held : held
}.
(** For each component and block; and the registers of each component, with
    those of the functions that it calls. *)
Record findings := { fd_block :> option string -> string -> found; fd_regs : option string -> list Z }.

Definition tblock_for (b : cblock) (r : found) : tblock :=
  {| t_block := pblock_of b; t_initial := r_initial r; t_final := r_final r; t_target := r_target r; t_spec := r_spec r; t_ids := r_ids r; t_junk := r_junk r;
     t_slots := r_slots r; t_held := r_held r |}.
Definition tcomponent_for (params : list string) (ret : option string) (res : string -> found) (regs : list Z) (g : clist) : tcomponent :=
  {| t_params := params; t_return := ret; t_start := match cl_start g with Some s => s | None => "" end;
     t_blocks := map (fun kb => (fst kb, tblock_for (snd kb) (res (fst kb)))) (cl_blocks g); t_regs := regs |}.
(** The object with what was found: the parameters in the order of the stack. *)
Definition translation_for (ob : cobject) (res : findings) : translation :=
  {| t_main := tcomponent_for [] None (res None) (fd_regs res None) (ob_main ob);
     t_functions := map (fun fk => (fst fk, tcomponent_for (rev (fn_args (snd fk))) (return_name ob (Some (fst fk))) (res (Some (fst fk))) (fd_regs res (Some (fst fk))) (fn_blocks (snd fk)))) (ob_functions ob) |}.
Definition tag_numbers (tags : list (string * nat)) : list (string * Z) := map (fun xt => (fst xt, Z.of_nat (snd xt))) tags.
Definition params_of (ob : cobject) (c : option string) : list string :=
  match c with Some f => match lookup f (ob_functions ob) with Some k => rev (fn_args k) | None => [] end | None => [] end.

(** The ways in which a block may end. *)
Inductive kind_ok (ob : cobject) (b : cblock) : Prop :=
| Kind_exit : In (cb_type b) ["unconditional"; "conditional"; "FunctionReturn"] -> kind_ok ob b
| Kind_fall : cb_type b = "falls_to" -> cb_split b = None -> cb_falls_to b <> None -> kind_ok ob b
| Kind_call i : In (cb_type b) ["sub_block"; "falls_to"] -> cb_split b = Some i -> In (li_op i) (map fst (ob_functions ob)) ->
    cb_falls_to b <> None -> return_name ob (Some (li_op i)) <> None -> kind_ok ob b
| Kind_last_call i : In (cb_type b) ["terminal"; "sub_block"; "falls_to"] -> cb_split b = Some i -> In (li_op i) (map fst (ob_functions ob)) ->
    return_name ob (Some (li_op i)) = None -> kind_ok ob b
| Kind_stop i : cb_type b = "terminal" -> cb_split b = Some i -> In (li_op i) ["return"; "revert"; "stop"; "selfdestruct"] -> kind_ok ob b
| Kind_main : cb_type b = "mainExit" -> cb_split b = None -> kind_ok ob b.

(** What the later stages are supposed to find, for the object and the tags that
    the preprocessing has produced.  [calls] has the functions considered when a
    value stays in a register during a call. *)
Record generated_with (calls : translation) (ob : cobject) (tags : list (string * nat)) (res : findings) (dummy : list string) (fuel : nat) : Prop := {
  (* each block compiled, and the result accepted by the checker (C39) *)
  ge_compiled : forall c g x b, component ob c g -> lookup x (cl_blocks g) = Some b -> compiled (tblock_for b (res c x));
  ge_unread : forall c g x b, component ob c g -> lookup x (cl_blocks g) = Some b -> unread dummy (tblock_for b (res c x));
  ge_dummy : forall c r, return_name ob c = Some r -> ~ In r dummy;
  ge_kind : forall c g x b, component ob c g -> lookup x (cl_blocks g) = Some b -> kind_ok ob b;
  (* words are only left behind where nobody returns *)
  ge_junk : forall c g x b, component ob c g -> lookup x (cl_blocks g) = Some b -> return_name ob c <> None -> r_junk (res c x) = false;
  (* what a block leaves is what the next ones expect *)
  ge_edges : forall c g x b x' b', component ob c g -> lookup x (cl_blocks g) = Some b -> In x' (successors b) -> lookup x' (cl_blocks g) = Some b' ->
    layouts_agree dummy (match return_name ob c with None => true | Some _ => false end) (Some x) (r_final (res c x)) (tblock_for b' (res c x'));
  (* what a block has in registers is what the next ones expect there *)
  ge_held : forall c g x b x' b', component ob c g -> lookup x (cl_blocks g) = Some b -> In x' (successors b) -> lookup x' (cl_blocks g) = Some b' ->
    forall r u, In (r, u) (r_held (res c x')) -> exists v, stays calls (tblock_for b (res c x)) r v /\
      passes dummy (p_phis (pblock_of b')) (index_of x (p_entries (pblock_of b'))) v u;
  ge_nothing : forall c g s, component ob c g -> cl_start g = Some s -> r_held (res c s) = [];
  ge_regs : forall c g x b, component ob c g -> lookup x (cl_blocks g) = Some b ->
    incl (r_slots (res c x)) (fd_regs res c) /\ incl (map fst (r_held (res c x))) (fd_regs res c) /\
    forall i, cb_split b = Some i -> In (li_op i) (map fst (ob_functions ob)) -> incl (fd_regs res (Some (li_op i))) (fd_regs res c);
  ge_entry : forall c g s b, component ob c g -> cl_start g = Some s -> lookup s (cl_blocks g) = Some b ->
    layouts_agree dummy (match return_name ob c with None => true | Some _ => false end) None (params_of ob c) (tblock_for b (res c s));
  (* the results of a call are new, and nothing is left when a function returns *)
  ge_results : forall c g x b i rest v, component ob c g -> lookup x (cl_blocks g) = Some b -> cb_split b = Some i ->
    r_final (res c x) = li_outs i ++ rest -> In v rest -> ~ In v (li_outs i);
  ge_return : forall c g x b, component ob c g -> lookup x (cl_blocks g) = Some b -> cb_type b = "FunctionReturn" -> r_final (res c x) = [];
  (* the graphs as the emission needs them (C26) *)
  ge_formed : forall blocks start, In (blocks, start) (emitted_component (t_main (translation_for ob res)) :: map snd (emitted_functions (translation_for ob res))) ->
    well_formed (map fst (ob_functions ob)) (tag_numbers tags) blocks start /\ length blocks <= fuel
}.
Definition generated (ob : cobject) (tags : list (string * nat)) (res : findings) (dummy : list string) (fuel : nat) : Prop :=
  generated_with (translation_for ob res) ob tags res dummy fuel.
