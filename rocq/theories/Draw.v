(** Model of the drawing of a network: Node.populate (src/node.py:143-151) and the
    part of Node.save that builds the graph (src/node.py:543-558).  Colours, layout
    and rendering are not modelled.

    pygraphviz is assumed to behave as documented: a node of a graph is known by
    the text str(n); adding it again changes its attributes; add_edge adds the
    missing ends; with strict=False every add_edge adds an edge. *)
From Verif Require Import Base Cost Utils Fractions Load Tree Search Expand.
From Coq Require Import QArith Qcanon.
Open Scope Z_scope.

(** str(node) with config.short_repr, src/node.py:30-34, 44-62: the value, the last
    three hexadecimal digits of the id (line 48), the kinds of the tags and the
    level.  [uid] is the number uuid4() gave to the node. *)
Definition text : Type := Qc * Z * list Z * option Z.
Definition tag_code (t : tag) : Z :=
  match t with TExtract _ => 0 | TDivide _ => 1 | TMerge _ => 2 | TSplit _ => 3 end.
Definition str_node (uid : nat -> Z) (h : heap Qc) (a : nat) : text :=
  let n := get h a in
  (n_value n, uid (n_id n) mod 4096, map tag_code (n_expands n), n_level n).
Definition level_eqb (a b : option Z) : bool :=
  match a, b with Some x, Some y => x =? y | None, None => true | _, _ => false end.
Definition text_eqb (s t : text) : bool :=
  let '(v, i, e, l) := s in
  let '(v', i', e', l') := t in
  frac_eqb v v' && (i =? i') && tuple_eqb e e' && level_eqb l l'.

(** pgv.AGraph(strict=False, directed=True): the nodes with their label and level,
    once given, and the edges, in order *)
Record graph := MkGraph { g_nodes : list (text * option (Qc * option Z)); g_edges : list (text * text) }.
Fixpoint put_node (k : text) (attr : option (Qc * option Z)) (l : list (text * option (Qc * option Z)))
  : list (text * option (Qc * option Z)) :=
  match l with
  | [] => [(k, attr)]
  | (k', attr') :: l =>
    if text_eqb k' k then (k', match attr with Some _ => attr | None => attr' end) :: l
    else (k', attr') :: put_node k attr l
  end.
Definition add_node (k : text) (label : Qc) (level : option Z) (g : graph) : graph :=
  MkGraph (put_node k (Some (label, level)) (g_nodes g)) (g_edges g).
Definition add_edge (k k' : text) (g : graph) : graph :=
  MkGraph (put_node k' None (put_node k None (g_nodes g))) (g_edges g ++ [(k, k')]).

(** populate, src/node.py:143-151; the state is (seen, G).  Fraction(v, ratio): the
    ratio is positive. *)
Fixpoint populate (fuel : nat) (uid : nat -> Z) (ratio : Z) (h : heap Qc) (st : list nat * graph) (a : nat)
  : res (list nat * graph) :=
  match fuel with
  | O => Err OutOfFuel
  | S fuel =>
    let (seen, g) := st in
    if nat_in a seen then Ok st else
    let key := str_node uid h in
    fold_res (fun (st : list nat * graph) c =>
        let (seen, g) := st in
        let g := add_edge (key a) (key c) g in
        if nat_in c seen then Ok (seen, g) else populate fuel uid ratio h (seen, g) c)
      (n_children (get h a)) (a :: seen, add_node (key a) (over (n_value (get h a)) ratio) (n_level (get h a)) g)
  end.
(** src/node.py:546-549 *)
Definition draw (fuel : nat) (uid : nat -> Z) (ratio : Z) (h : heap Qc) (roots : list nat) : res (heap Qc * graph) :=
  do (h, (_, g)) <- fold_res (fun (st : heap Qc * (list nat * graph)) r =>
      let '(h, st) := st in
      let h := set_levels 0 [r] h in
      do st <- populate fuel uid ratio h st r; Ok (h, st)) roots (h, ([], MkGraph [] []));
  Ok (h, g).
(** src/node.py:552-558: the groups of equal rank, a dict of lists; int("None") raises,
    a missing level is 0 *)
Fixpoint put_rank (l : Z) (k : text) (ranks : list (Z * list text)) : list (Z * list text) :=
  match ranks with
  | [] => [(l, [k])]
  | (l', ks) :: ranks => if l' =? l then (l', ks ++ [k]) :: ranks else (l', ks) :: put_rank l k ranks
  end.
Definition rank_nodes (g : graph) : res (list (Z * list text)) :=
  fold_res (fun ranks e =>
      do l <- match snd e with None => Ok 0 | Some (_, None) => Err ValueError | Some (_, Some l) => Ok l end;
      Ok (put_rank l (fst e) ranks))
    (g_nodes g) [].
