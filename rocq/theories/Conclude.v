(** Model of what follows the search: planting the target groups, saving and
    expanding every solution (conclude and clear_solution_files of
    src/solver.py, save of src/tree.py and src/node.py) and the .data files
    (Node.wrap and Node.unwrap). *)
From Verif Require Import Base Cost Utils Fractions Load Tree Search Expand.
Open Scope Z_scope.

(** ** The nodes of self.leaves *)

(** load makes the nodes of the target groups before the search (src/solver.py:71,
    Node.group_values); the search never touches them.  The model puts them in
    the heap afterwards, each node followed by the subtrees of its children, so
    only their addresses differ.  [past] is dropped: nothing reads it after the
    search. *)
Fixpoint gsize (g : gnode) : nat :=
  match g with GNode _ _ cs => S (list_sum (map gsize cs)) end.
(** addresses of the given subtrees when they lie one after the other from [b] *)
Fixpoint starts (b : nat) (gs : list gnode) : list nat :=
  match gs with
  | [] => []
  | g :: r => b :: starts (b + gsize g) r
  end.
Fixpoint flat (a : nat) (parents : list nat) (g : gnode) : heap Z :=
  match g with
  | GNode v tags cs =>
    MkNode v a None fl_new parents (starts (S a) cs) tags 0 ::
    (fix flats (b : nat) (cs : list gnode) : heap Z :=
       match cs with
       | [] => []
       | c :: r => flat b [a] c ++ flats (b + gsize c)%nat r
       end) (S a) cs
  end.
Fixpoint flats (b : nat) (parents : list nat) (gs : list gnode) : heap Z :=
  match gs with
  | [] => []
  | g :: r => flat b parents g ++ flats (b + gsize g) parents r
  end.
Definition plant (h : heap Z) (gs : list gnode) : heap Z * list nat :=
  (h ++ flats (length h) [] gs, starts (length h) gs).

(** From here on values may be Fractions. *)
Definition node_frac (n : node Z) : node Qc :=
  MkNode (frac_of_Z (n_value n)) (n_id n) (n_level n) fl_new (n_parents n) (n_children n)
    (n_expands n) (n_levels_to_add n).
Definition tree_frac (t : tree Z) : tree Qc :=
  MkTree (t_roots t) (t_sources t) (t_levels t)
    {| fl_items := map (map frac_of_Z) (fl_items (t_past t)); fl_set := map (map frac_of_Z) (fl_set (t_past t)) |}
    (t_current_level t) (map frac_of_Z (t_source_values t)) (t_n_sources t) (t_size t).

(** ** Saving *)

(** A pair of files solution<i>[_expanded].{png,data}.  Both are functions of the
    heap and the roots at that time. *)
Record saved := MkSaved {
  sv_index : nat; sv_expanded : bool; sv_heap : heap Qc; sv_roots : list nat
}.
(** Node.save, src/node.py:539-583.  Every exception in it is caught there.
    Drawing (pygraphviz, graphviz) and writing are assumed to work and are not
    modelled; the .data file is [wrap], below. *)
Definition node_save (i : nat) (expanded : bool) (h : heap Qc) (roots : list nat) : heap Qc * saved :=
  let h := set_levels 0 roots h in
  (h, MkSaved i expanded h roots).
(** Tree.save, src/tree.py:81-84: the files written, and the heap or exception *)
Definition tree_save (fuel i : nat) (h : heap Qc) (t : tree Qc) : list saved * res (heap Qc) :=
  let (h, f) := node_save i false h (t_roots t) in
  match expand_roots fuel h (t_roots t) with
  | Err e => ([f], Err e)
  | Ok h => let (h, f') := node_save i true h (t_roots t) in ([f; f'], Ok h)
  end.
(** src/solver.py:396-400; [concluding i] is what the read of self.concluding
    before solution [i] gives *)
Fixpoint save_all (fuel : nat) (concluding : nat -> bool) (i : nat) (h : heap Qc) (leaves : list nat)
    (trees : list (tree Qc)) : list saved * res (heap Qc) :=
  match trees with
  | [] => ([], Ok h)
  | t :: trees =>
    if negb (concluding i) then ([], Ok h) else
    match attach_leaves fuel h t leaves with
    | Err e => ([], Err e)
    | Ok (h, t) =>
      match tree_save fuel i h t with
      | (files, Err e) => (files, Err e)
      | (files, Ok h) =>
        let (files', r) := save_all fuel concluding (S i) h leaves trees in (files ++ files', r)
      end
    end
  end.
(** conclude, src/solver.py:385-408, in the state left by solve; a single
    solution is saved whatever self.concluding.  The directory is in
    [clear_solution_files], below. *)
Definition conclude (fuel : nat) (concluding : nat -> bool) (p : problem) (s : state) : list saved * res (heap Qc) :=
  let (h, leaves) := plant (s_heap s) (p_leaves p) in
  let h := map node_frac h in
  let trees := map tree_frac (s_solutions s) in
  if s_solutions_count s >? 1 then save_all fuel concluding 0 h leaves trees
  else match trees with
       | [] => ([], Ok h)
       | t :: _ => save_all fuel (fun _ => true) 0 h leaves [t]
       end.

(** ** Node.wrap, src/node.py:63-91 *)

(** one line of a .data file.  Text: str of the tuples and ast.literal_eval are
    assumed to be inverse to each other, as are str(uuid) and uuid.UUID; an id is
    kept as it is, a value as the pair of its numerator and denominator. *)
Record line := MkLine {
  l_value : Z * Z; l_id : nat; l_level : option Z;
  l_parents : list nat; l_children : list nat; l_expands : list tag
}.
Definition line_of (h : heap Qc) (a : nat) : line :=
  let n := get h a in
  MkLine (numer (n_value n), denom (n_value n)) (n_id n) (n_level n)
    (map (fun p => n_id (get h p)) (n_parents n)) (map (fun c => n_id (get h c)) (n_children n)) (n_expands n).
(** traverse; the state is (seen, output).  The loops over children and parents
    have the same body, so they are one loop. *)
Fixpoint traverse (fuel : nat) (h : heap Qc) (st : list nat * list line) (a : nat) : res (list nat * list line) :=
  match fuel with
  | O => Err OutOfFuel
  | S fuel =>
    let (seen, output) := st in
    if nat_in a seen then Ok st else
    fold_res (fun st b => if nat_in b (fst st) then Ok st else traverse fuel h st b)
      (n_children (get h a) ++ n_parents (get h a)) (a :: seen, output ++ [line_of h a])
  end.
Definition wrap (fuel : nat) (h : heap Qc) (root : nat) : res (list line) :=
  do st <- traverse fuel h ([], []) root; Ok (snd st).

(** ** Node.unwrap, src/node.py:101-118 *)

(** node_map: a dict from ids to addresses, in insertion order *)
Fixpoint map_set (id a : nat) (m : list (nat * nat)) : list (nat * nat) :=
  match m with
  | [] => [(id, a)]
  | (k, b) :: m => if (k =? id)%nat then (k, a) :: m else (k, b) :: map_set id a m
  end.
Definition map_get (m : list (nat * nat)) (id : nat) : res nat :=
  match find (fun e => (fst e =? id)%nat) m with Some e => Ok (snd e) | None => Err KeyError end.
(** lines 109-110, into an empty heap *)
Definition unwrap_node (st : heap Qc * list (nat * nat)) (l : line) : res (heap Qc * list (nat * nat)) :=
  let (h, m) := st in
  do v <- mkfrac (fst (l_value l)) (snd (l_value l));
  if negative v then Err ValueError else
  Ok (h ++ [MkNode v (l_id l) (l_level l) (fl_append frac_eqb v fl_new) [] [] [] 0], map_set (l_id l) (length h) m).
(** lines 112-116 *)
Definition unwrap_links (m : list (nat * nat)) (h : heap Qc) (l : line) : res (heap Qc) :=
  do a <- map_get m (l_id l);
  do ps <- map_res (map_get m) (l_parents l);
  do cs <- map_res (map_get m) (l_children l);
  Ok (upd a (fun n => set_expands (l_expands l) (set_children cs (set_parents ps n))) h).
Definition unwrap (data : list line) : res (heap Qc * list nat) :=
  do (h, m) <- fold_res unwrap_node data ([], []);
  do h <- fold_res (unwrap_links m) data h;
  Ok (h, filter (fun a => match n_level (get h a) with Some l => l =? 0 | None => false end) (map snd m)).

(** ** File names *)

(** config.py: solution_regex = solution\d+(?:_expanded)?\.(?:png|data), used with
    match(), which looks at a prefix.  Simplification: \d is an ASCII digit
    here.  There is never anything to backtrack to: after the digits comes an
    underscore or a dot. *)
Definition s_solution : str := [115; 111; 108; 117; 116; 105; 111; 110].
Definition s_expanded_suffix : str := [95; 101; 120; 112; 97; 110; 100; 101; 100].
Definition s_png : str := [46; 112; 110; 103].
Definition s_data : str := [46; 100; 97; 116; 97].
(** the rest of a string after a prefix *)
Fixpoint after_prefix (pre s : str) : option str :=
  match pre, s with
  | [], _ => Some s
  | c :: pre, d :: s => if c =? d then after_prefix pre s else None
  | _ :: _, [] => None
  end.
Definition solution_regex_match (name : str) : bool :=
  match after_prefix s_solution name with
  | None => false
  | Some rest =>
    let (ds, rest) := span_digits rest in
    match ds with
    | [] => false
    | _ =>
      let rest := match after_prefix s_expanded_suffix rest with Some r => r | None => rest end in
      match after_prefix s_png rest, after_prefix s_data rest with
      | None, None => false
      | _, _ => true
      end
    end
  end.
(** clear_solution_files, src/solver.py:380-383, on the names in the directory of
    the problem *)
Definition clear_solution_files (names : list str) : list str :=
  filter (fun name => negb (solution_regex_match name)) names.
(** the names written for solution [i]: config.solutions_filename, src/solver.py:400,
    src/tree.py:82-84, src/node.py:574,579 *)
Definition solution_files (i : Z) : list str :=
  flat_map (fun suffix => map (fun ext => s_solution ++ str_of_Z i ++ suffix ++ ext) [s_png; s_data])
    [[]; s_expanded_suffix].
