(** Classes of variables related by phi functions: src/reparation/phi_webs.py. *)
From Verif Require Import Base UtilModel.
Open Scope string_scope. Open Scope list_scope.

(** src/reparation/phi_webs.py:16-21.  [w_num] is a Python int; it only goes up
    with a new element and down with an effective union. *)
Record webs := {
  w_class : list (string * nat);   (* _var2class *)
  w_parent : list nat;             (* _class2parent *)
  w_nelems : list nat;             (* _n_elems_class *)
  w_rank : list nat;               (* _rank *)
  w_num : Z                        (* _num_sets *)
}.
Definition empty_webs : webs := {| w_class := []; w_parent := []; w_nelems := []; w_rank := []; w_num := 0 |}.

(** src/reparation/phi_webs.py:23-30 *)
Definition initialize_element (w : webs) (x : string) : webs :=
  match lookup x (w_class w) with
  | Some _ => w
  | None =>
      let index := length (w_parent w) in
      {| w_class := w_class w ++ [(x, index)]; w_parent := w_parent w ++ [index];
         w_nelems := w_nelems w ++ [1]; w_rank := w_rank w ++ [0]; w_num := (w_num w + 1)%Z |}
  end.

(** src/reparation/phi_webs.py:51-54, with path compression.  The recursion
    follows parents; ranks grow along them, hence the fuel used by [find_set]. *)
Fixpoint find_index (fuel : nat) (index : nat) (parents : list nat) : result (nat * list nat) :=
  match fuel with
  | O => Raise OutOfFuel
  | S fuel' =>
      do p <- of_option (nth_error parents index);
      if (p =? index)%nat then Ok (index, parents)
      else do rp <- find_index fuel' p parents;
           let '(r, parents') := rp in Ok (r, set_nth index r parents')
  end.
Definition with_parent (w : webs) (p : list nat) : webs :=
  {| w_class := w_class w; w_parent := p; w_nelems := w_nelems w; w_rank := w_rank w; w_num := w_num w |}.

(** src/reparation/phi_webs.py:56-57.  It changes the state (compression). *)
Definition find_set (w : webs) (x : string) : result (nat * webs) :=
  do c <- of_option (lookup x (w_class w));
  do rp <- find_index (S (list_max (w_rank w))) c (w_parent w);
  let '(r, p) := rp in Ok (r, with_parent w p).

(** src/reparation/phi_webs.py:59-74 *)
Definition union_set (w : webs) (x y : string) : result webs :=
  do r1 <- find_set w x; let '(c1, w1) := r1 in
  do r2 <- find_set w1 y; let '(c2, w2) := r2 in
  if (c1 =? c2)%nat then Ok w2
  else
    do k1 <- of_option (nth_error (w_rank w2) c1);
    do k2 <- of_option (nth_error (w_rank w2) c2);
    do n1 <- of_option (nth_error (w_nelems w2) c1);
    do n2 <- of_option (nth_error (w_nelems w2) c2);
    if (k2 <? k1)%nat then
      Ok {| w_class := w_class w2; w_parent := set_nth c2 c1 (w_parent w2);
            w_nelems := set_nth c2 0 (set_nth c1 (n1 + n2) (w_nelems w2));
            w_rank := w_rank w2; w_num := (w_num w2 - 1)%Z |}
    else
      Ok {| w_class := w_class w2; w_parent := set_nth c1 c2 (w_parent w2);
            w_nelems := set_nth c1 0 (set_nth c2 (n2 + n1) (w_nelems w2));
            w_rank := if (k1 =? k2)%nat then set_nth c2 (k2 + 1) (w_rank w2) else w_rank w2;
            w_num := (w_num w2 - 1)%Z |}.

(** src/reparation/phi_webs.py:35-49.  The Python property returns a set. *)
Definition num_sets (w : webs) : Z := w_num w.
Definition num_elements (w : webs) : nat := length (w_class w).
Definition classes_with_elements (w : webs) : list nat :=
  map fst (filter (fun p => (0 <? snd p)%nat) (combine (seq 0 (length (w_nelems w))) (w_nelems w))).

(** src/reparation/phi_webs.py:76-80.  [phi_values] is a set: the order in which
    it is visited is arbitrary, here any list. *)
Definition join_phi (w : webs) (phi : string * list string) : result webs :=
  for_each (fun w v => union_set (initialize_element w v) (fst phi) v) (snd phi) (initialize_element w (fst phi)).

(** A history of joins. *)
Definition join_all (phis : list (string * list string)) : result webs := for_each join_phi phis empty_webs.

(** src/reparation/phi_webs.py:82-93 *)
Definition add_to_class (r : nat) (x : string) (d : list (nat * list string)) : list (nat * list string) :=
  (fix go d := match d with
   | [] => [(r, [x])]
   | (k, s) :: d' => if (k =? r)%nat then (k, s ++ [x]) :: d' else (k, s) :: go d'
   end) d.
Definition get_sets (w : webs) : result (list (list string)) :=
  do st <- for_each (fun st xi => let '(parents, d) := st in
     do rp <- find_index (S (list_max (w_rank w))) (snd xi) parents;
     let '(r, parents') := rp in Ok (parents', add_to_class r (fst xi) d)) (w_class w) (w_parent w, []);
  Ok (filter (fun s => (1 <? length s)%nat) (map snd (snd st))).
