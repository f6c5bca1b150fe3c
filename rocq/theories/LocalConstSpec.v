(** Runs along a path of blocks, for any meaning of the operations. *)
From Verif Require Import Base UtilModel LiveModel CfgModel JumpModel.
Open Scope string_scope. Open Scope list_scope.
Section Runs.
Variables (V W : Type) (const : string -> V) (meaning : string -> option (list string) -> W -> list V -> W * list V).
Definition env := string -> V.
Definition value (e : env) (a : string) : V := if prefix "0x" a then const a else e a.
Fixpoint assign (outs : list string) (vs : list V) (e : env) : env :=
  match outs, vs with
  | o :: outs', v :: vs' => assign outs' vs' (fun x => if string_dec x o then v else e x)
  | _, _ => e
  end.
Definition exec (i : linstr) (st : env * W) : env * W :=
  let r := meaning (li_op i) (li_lits i) (snd st) (map (value (fst st)) (li_ins i)) in (assign (li_outs i) (snd r) (fst st), fst r).
Definition exec_all (l : list linstr) (st : env * W) : env * W := fold_left (fun st i => exec i st) l st.
(** The phi functions of a block take the argument of the block we come from,
    all at once. *)
Definition phis (b : cblock) : list linstr := filter (fun i => String.eqb (li_op i) "PhiFunction") (cb_instrs b).
Definition others (b : cblock) : list linstr := filter (fun i => negb (String.eqb (li_op i) "PhiFunction")) (cb_instrs b).
Fixpoint argument_from (from : string) (args entries : list string) : option string :=
  match args, entries with a :: args', p :: entries' => if string_dec p from then Some a else argument_from from args' entries' | _, _ => None end.
Definition enter (from : string) (b : cblock) (e : env) : env :=
  fold_left (fun e' i => match argument_from from (li_ins i) (cb_entries b) with Some a => assign (li_outs i) [value e a] e' | None => e' end) (phis b) e.
(** The blocks [path] one after the other, coming from [from]. *)
Fixpoint run (blocks : list (string * cblock)) (from : string) (path : list string) (st : env * W) : option (env * W) :=
  match path with
  | [] => Some st
  | x :: path' =>
      match UtilModel.lookup x blocks with
      | Some b => run blocks x path' (exec_all (others b) (enter from b (fst st), snd st))
      | None => None
      end
  end.
End Runs.
(** The variables of a component. *)
Definition occurs (g : clist) (v : string) : Prop := exists x b i, In (x, b) (cl_blocks g) /\ In i (cb_instrs b) /\ (In v (li_ins i) \/ In v (li_outs i)).
