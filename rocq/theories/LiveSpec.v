(** What liveness means, independently of the analysis: a variable is live at a
    point if along some path from that point it is read before it is written. *)
From Verif Require Import Base UtilModel LiveModel.
Open Scope string_scope. Open Scope list_scope.

Inductive event := Read (x : string) | Write (x : string).
(** Some read of [v] in the sequence is not preceded by a write of [v]. *)
Definition needed (v : string) (evs : list event) : Prop :=
  exists before after, evs = before ++ Read v :: after /\ ~ In (Write v) before.

Definition phi_instrs (b : lblock) : list linstr := filter is_phi (lb_instrs b).
Definition body_instrs (b : lblock) : list linstr := filter (fun i => negb (is_phi i)) (lb_instrs b).
Definition phi_results (b : lblock) : list string := flat_map li_outs (phi_instrs b).
(** The arguments of the phi functions of [b] for predecessor [p]. *)
Definition phi_arguments (p : string) (b : lblock) : list string :=
  flat_map (fun i => map snd (filter (fun ea => String.eqb (fst ea) p) (combine (lb_entries b) (li_ins i)))) (phi_instrs b).

(** The body of a block; entering it from [p] first performs all phi functions
    at once. *)
Definition body_events (b : lblock) : list event :=
  flat_map (fun i => map Read (li_ins i) ++ map Write (li_outs i)) (body_instrs b).
Definition enter_events (p : string) (b : lblock) : list event :=
  map Read (phi_arguments p b) ++ map Write (phi_results b) ++ body_events b.

Fixpoint is_path (g : blocks) (b : string) (path : list string) : Prop :=
  match path with
  | [] => True
  | s :: rest => (exists bb, lookup b g = Some bb /\ In s (lb_succs bb)) /\ is_path g s rest
  end.
(** What happens after leaving [b] along [path]. *)
Fixpoint path_events (g : blocks) (b : string) (path : list string) : list event :=
  match path with
  | [] => []
  | s :: rest => match lookup s g with Some sb => enter_events b sb ++ path_events g s rest | None => [] end
  end.

Definition live_out_at (g : blocks) (b v : string) : Prop :=
  exists path, is_path g b path /\ needed v (path_events g b path).
(** live after the phi functions of [b] *)
Definition live_in_at (g : blocks) (b v : string) : Prop :=
  exists bb path, lookup b g = Some bb /\ is_path g b path /\ needed v (body_events bb ++ path_events g b path).

(** A control-flow graph with consistent links, phi functions first, one phi
    argument per entry, and every predecessor among the entries. *)
Record ssa_graph (g : blocks) : Prop := {
  sg_keys : NoDup (map fst g);
  sg_succ : forall b bb s, lookup b g = Some bb -> In s (lb_succs bb) -> exists sb, lookup s g = Some sb /\ In b (lb_preds sb);
  sg_pred : forall s sb b, lookup s g = Some sb -> In b (lb_preds sb) -> exists bb, lookup b g = Some bb /\ In s (lb_succs bb);
  sg_phis : forall b bb, lookup b g = Some bb -> lb_instrs bb = phi_instrs bb ++ body_instrs bb;
  sg_entries : forall b bb, lookup b g = Some bb ->
     (lb_entries bb = [] /\ phi_instrs bb = [])
     \/ (NoDup (lb_entries bb) /\ incl (lb_preds bb) (lb_entries bb)
         /\ forall i, In i (phi_instrs bb) -> length (li_ins i) = length (lb_entries bb))
}.
Definition flow (g : blocks) (b s : string) : Prop := exists bb, lookup b g = Some bb /\ In s (lb_succs bb).
Definition has_phis (g : blocks) (s : string) : Prop := exists sb, lookup s g = Some sb /\ phi_instrs sb <> [].
