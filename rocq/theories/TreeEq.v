(** Model of Tree.to_nx_graph and Tree.__eq__, src/tree.py:29-45. *)
From Verif Require Import Base Tree.

(** add_edges, src/tree.py:33-36: an undirected edge from the node to each child,
    then the same below the child.  Nodes are compared and hashed by identity.
    [fuel] bounds the depth; paths of a tree visit no node twice. *)
Fixpoint add_edges (h : heap Z) (fuel : nat) (a : nat) : list (nat * nat) :=
  match fuel with
  | O => []
  | S fuel => flat_map (fun c => (a, c) :: add_edges h fuel c) (n_children (get h a))
  end.
(** to_nx_graph, src/tree.py:29-41: nodes appear with their edges only *)
Definition to_nx_graph (h : heap Z) (t : tree Z) : list (nat * nat) :=
  flat_map (add_edges h (length h)) (t_roots t).

(** the graph of these edges *)
Definition edge (g : list (nat * nat)) (a b : nat) : bool :=
  existsb (fun e => (fst e =? a)%nat && (snd e =? b)%nat || (fst e =? b)%nat && (snd e =? a)%nat) g.
Definition vertices (g : list (nat * nat)) : list nat := nodup Nat.eq_dec (map fst g ++ map snd g).

(** networkx.is_isomorphic is library code; it is replaced by a plain search for a
    one-to-one correspondence of the vertices that keeps the edges.  [todo]:
    vertices of [g1] without a partner, [free]: vertices of [g2] without one,
    [pairs]: the correspondence so far. *)
Definition fits (g1 g2 : list (nat * nat)) (pairs : list (nat * nat)) (a b : nat) : bool :=
  Bool.eqb (edge g1 a a) (edge g2 b b) && forallb (fun q => Bool.eqb (edge g1 a (fst q)) (edge g2 b (snd q))) pairs.
Fixpoint pair_up (g1 g2 : list (nat * nat)) (pairs : list (nat * nat)) (todo free : list nat) : bool :=
  match todo with
  | [] => match free with [] => true | _ => false end
  | a :: todo =>
      existsb (fun b => if fits g1 g2 pairs a b
                        then pair_up g1 g2 ((a, b) :: pairs) todo (filter (fun x => negb (x =? b)%nat) free) else false) free
  end.
Definition is_isomorphic (g1 g2 : list (nat * nat)) : bool :=
  (length (vertices g1) =? length (vertices g2))%nat && pair_up g1 g2 [] (vertices g1) (vertices g2).

(** __eq__, src/tree.py:43-45 *)
Definition tree_eq (h : heap Z) (t u : tree Z) : bool := is_isomorphic (to_nx_graph h t) (to_nx_graph h u).
