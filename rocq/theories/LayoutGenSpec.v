(** Specification side of C42: when the layouts of the blocks of a component fit
    together, and on which components this is claimed. *)
From Verif Require Import Base UtilModel LiveModel CfgModel LayoutModel UnifyModel LayoutGenModel.
Open Scope string_scope. Open Scope list_scope.

(** Names of stack positions nobody reads: the filler "bottom", b0, b1, ...
    (positions where the predecessors hold something else) and a0, a1, ...
    (repeated values). *)
Definition filler (u : string) : Prop := u = "bottom" \/ (exists i, u = pseudo i) \/ (exists n, u = ("a" ++ str_nat n)%string).

(** The results of the phi functions of a block, and the argument that belongs
    to one of its predecessors. *)
Definition phi_result (s : cblock) (u : string) : Prop := exists i, In i (phi_instructions s) /\ hd_error (li_outs i) = Some u.
Definition phi_argument (s : cblock) (from u v : string) : Prop :=
  exists i k, In i (phi_instructions s) /\ hd_error (li_outs i) = Some u /\ nth_error (cb_entries s) k = Some from /\ nth_error (li_ins i) k = Some v.

(** [from] leaves [v] where the block [s] starts with [u]. *)
Definition carried (s : cblock) (from v u : string) : Prop :=
  filler u \/ phi_argument s from u v \/ (~ phi_result s u /\ u = v).

(** The words left by [from] are those [s] starts with; deeper words are only
    allowed if [junk]. *)
Definition fits (junk : bool) (s : cblock) (from : string) (left start : list string) : Prop :=
  exists keep rest, left = keep ++ rest /\ (junk = false -> rest = []) /\ Forall2 (carried s from) keep start.

Definition block_at (env : layout_env) (x : string) (b : cblock) : Prop := lookup x (le_blocks env) = Some b.
(** More than one predecessor. *)
Definition join (b : cblock) : Prop := 1 < length (cb_comes_from b).

Inductive reached (env : layout_env) : string -> Prop :=
| reached_start : reached env (le_start env)
| reached_step a b s : reached env a -> block_at env a b -> In s (successors b) -> reached env s.

Definition reserved (u : string) : Prop := exists i, u = pseudo i.

(** A component with its liveness.  The graph is closed and its predecessor
    lists are exact (C22-C25); the phi functions list one argument for each
    predecessor; liveness is consistent (C30): what a block needs is live after
    its only predecessor, and phi results are live in their block. *)
Record component_ok (env : layout_env) (lv : lives) : Prop := {
  ok_names : NoDup (map fst (le_blocks env));
  ok_succs : forall x b s, block_at env x b -> In s (successors b) -> exists sb, block_at env s sb /\ In x (cb_comes_from sb);
  ok_preds : forall x b p, block_at env x b -> In p (cb_comes_from b) -> exists pb, block_at env p pb /\ In x (successors pb);
  ok_nodup : forall x b, block_at env x b -> NoDup (cb_comes_from b);
  (* no block jumps to itself *)
  ok_self : forall x b, block_at env x b -> ~ In x (cb_comes_from b);
  (* no block has two successors with other predecessors *)
  ok_one_join : forall x b s1 b1 s2 b2, block_at env x b -> In s1 (successors b) -> In s2 (successors b) ->
    block_at env s1 b1 -> block_at env s2 b2 -> join b1 -> join b2 -> s1 = s2;
  ok_entries : forall x b, block_at env x b -> cb_entries b = [] \/ (NoDup (cb_entries b) /\ forall p, In p (cb_entries b) <-> In p (cb_comes_from b));
  ok_phis : forall x b i, block_at env x b -> In i (phi_instructions b) ->
    cb_entries b <> [] /\ join b /\ length (li_ins i) = length (cb_entries b) /\ ~ In "bottom" (li_ins i)
    /\ exists u, hd_error (li_outs i) = Some u /\ ~ reserved u;
  ok_phi_outs : forall x b, block_at env x b -> NoDup (map (fun i => hd_error (li_outs i)) (phi_instructions b));
  ok_live : forall x b, block_at env x b -> exists l, lookup x lv = Some l /\ NoDup (lv_in l) /\ NoDup (lv_out l)
    /\ (forall u, phi_result b u -> In u (lv_in l))
    /\ (forall v, In v (lv_out l) -> ~ reserved v /\ v <> "bottom");
  (* nothing extra at the beginning *)
  ok_extra : forall x l, lookup x lv = Some l -> lv_in_extra l = [] /\ lv_out_extra l = [];
  ok_live_edge : forall x b s sb lx ls, block_at env x b -> In s (successors b) -> block_at env s sb -> ~ join sb ->
    lookup x lv = Some lx -> lookup s lv = Some ls -> incl (lv_in ls) (lv_out lx);
  (* a phi result is not read by another successor of a predecessor *)
  ok_live_phi : forall x b s sb t tb lt u, block_at env x b -> In s (successors b) -> block_at env s sb -> phi_result sb u ->
    In t (successors b) -> t <> s -> block_at env t tb -> lookup t lv = Some lt -> ~ In u (lv_in lt);
  ok_live_start : forall l, lookup (le_start env) lv = Some l -> incl (lv_in l) (le_inputs env)
}.

(** The layouts [initial, final] of the blocks fit together. *)
Record layouts_fit (env : layout_env) (lv : lives) (spec : list (string * (list string * list string))) : Prop := {
  fit_all : forall x, reached env x -> exists i f, lookup x spec = Some (i, f);
  fit_start : exists f kept dropped, le_inputs env = kept ++ dropped /\ (le_main env && le_junk env = false -> dropped = [])
    /\ lookup (le_start env) spec = Some (substitute_duplicates kept, f);
  fit_edges : forall x b s sb i f i' f', reached env x -> block_at env x b -> In s (successors b) -> block_at env s sb ->
    lookup x spec = Some (i, f) -> lookup s spec = Some (i', f') -> fits (le_main env && le_junk env) sb x f i';
  fit_live : forall x l i f, reached env x -> lookup x lv = Some l -> lookup x spec = Some (i, f) ->
    forall v, In v (lv_in l) -> In v i
}.

(** The tables computed before the traversal cover the blocks, and paths of the
    dominator tree connect their ends. *)
Record tables_ok (env : layout_env) (lv : lives) : Prop := {
  tb_start : exists b, block_at env (le_start env) b /\ cb_comes_from b = [];
  tb_order : forall x b, block_at env x b -> exists info, lookup x (le_order env) = Some info;
  tb_depth : forall x b, block_at env x b -> exists d, lookup x (le_depth env) = Some d;
  tb_path : forall a b p, le_path env a b = Some p -> hd_error p = Some a /\ hd_error (rev p) = Some b;
  tb_preds : forall x b p, block_at env x b -> In p (le_preds env x) -> exists pb, block_at env p pb;
  tb_live : NoDup (map fst lv)
}.
