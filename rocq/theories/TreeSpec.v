(** What it means for a tree of the search to be a network.  Independent of the
    operations of Tree.v: only the fields of nodes and trees are read. *)
From Verif Require Import Base Cost Utils Load Tree.
Open Scope Z_scope.

Section Network.
Variable h : heap Z.
Definition value (a : nat) : Z := n_value (get h a).
Definition children (a : nat) : list nat := n_children (get h a).
Definition parents (a : nat) : list nat := n_parents (get h a).
Definition level (a : nat) : option Z := n_level (get h a).

(** [b] is reached from [a] along child links *)
Inductive below : nat -> nat -> Prop :=
| below_refl a : below a a
| below_step a b c : below a b -> In c (children b) -> below a c.

Variable t : tree Z.
(** the nodes of a tree: what can be reached from its roots *)
Definition in_tree (a : nat) : Prop := exists r, In r (t_roots t) /\ below r a.

(** [a] was split: at least two children, each fed by [a] only, sharing its flow *)
Definition splits (a : nat) : Prop :=
  (2 <= length (children a))%nat /\
  Forall (fun c => parents c = [a]) (children a) /\
  zsum (map value (children a)) = value a.
(** [a] is one of the inputs of a merge: its only child is fed by at least two
    nodes that feed nothing else, and carries the sum of their flows *)
Definition merged (a : nat) : Prop :=
  exists m, children a = [m] /\ In a (parents m) /\ (2 <= length (parents m))%nat /\
    Forall (fun q => children q = [m]) (parents m) /\
    value m = zsum (map value (parents m)).

(** a network fed by [values]; C21 *)
Record network (values : list Z) : Prop := {
  net_alloc : forall a, in_tree a -> (a < length h)%nat;
  net_roots : map value (t_roots t) = values;
  net_roots_distinct : NoDup (t_roots t);
  net_top : forall a, in_tree a -> (parents a = [] <-> In a (t_roots t));
  net_parents : forall a b, in_tree a -> In b (parents a) -> in_tree b;
  net_links : forall a b, in_tree a -> in_tree b -> (In b (children a) <-> In a (parents b));
  net_simple : forall a, in_tree a -> NoDup (children a) /\ NoDup (parents a);
  net_flow : forall a, in_tree a -> children a = [] \/ splits a \/ merged a;
  net_positive : forall a, in_tree a -> 0 < value a;
  net_ids : forall a b, in_tree a -> in_tree b -> n_id (get h a) = n_id (get h b) -> a = b;
  net_open : forall a, In a (t_sources t) <-> in_tree a /\ children a = [];
  net_open_distinct : NoDup (t_sources t);
  net_open_values : t_source_values t = map value (t_sources t);
  net_open_sorted : StronglySorted Z.le (t_source_values t);
  net_open_count : t_n_sources t = Z.of_nat (length (t_sources t));
  net_total : zsum (t_source_values t) = zsum values
}.

(** drawing levels; C32 *)
Record levelled : Prop := {
  lev_edges : forall a b, in_tree a -> In b (children a) ->
    exists la lb, level a = Some la /\ level b = Some lb /\ la < lb;
  lev_open : forall a, In a (t_sources t) -> level a = Some (t_current_level t);
  lev_inner : forall a, in_tree a -> ~ In a (t_sources t) ->
    exists l, level a = Some l /\ 0 <= l < t_current_level t
}.
End Network.

(** how a node carrying [v] may be split into [vs], and the expansion tags that
    records; C50 *)
Inductive split_tags (v : Z) (vs : list Z) : list tag -> Prop :=
| st_extract c : 0 < c < v -> c <> v - c -> Permutation vs [c; v - c] ->
    split_tags v vs (if zmem c [60; 120; 270; 480; 780; 1200] then [] else [TExtract c])
| st_divide d q : 2 <= d -> v = d * q -> vs = repeat q (Z.to_nat d) ->
    split_tags v vs (if 3 <? d then [TDivide d] else [])
| st_split c q : In c [60; 120; 270; 480; 780; 1200] -> c = 3 * q -> 2 * q < v < c ->
    Permutation vs [q; q; v - 2 * q] ->
    split_tags v vs [TSplit c].
(** the tags of a node: first that of the merge it results from, if more than
    three inputs, then that of its split *)
Definition tagged (h : heap Z) (a : nat) : Prop :=
  exists own, n_expands (get h a) =
    (if (3 <? length (parents h a))%nat then [TMerge 3] else []) ++ own /\
    ((2 <= length (children h a))%nat ->
      split_tags (value h a) (map (value h) (children h a)) own) /\
    ((length (children h a) < 2)%nat -> own = []).

(** two trees without a common node; C31 *)
Definition apart (h : heap Z) (t u : tree Z) : Prop := forall a, in_tree h t a -> in_tree h u a -> False.

(** [t'] in heap [h'] is a copy of [t] in heap [h], [C] mapping each node to its
    copy; C31.  Children lists are reversed and parents may be permuted.  Tree()
    sets the level of the roots to 0 and n_sources to their number. *)
Record faithful_copy (h : heap Z) (t : tree Z) (h' : heap Z) (t' : tree Z) (C : nat -> nat) : Prop := {
  fc_old : forall a, (a < length h)%nat -> get h' a = get h a;
  fc_new : forall a, in_tree h t a -> (length h <= C a < length h')%nat;
  fc_injective : forall a b, in_tree h t a -> in_tree h t b -> C a = C b -> a = b;
  fc_nodes : forall c, in_tree h' t' c <-> exists a, in_tree h t a /\ c = C a;
  fc_value : forall a, in_tree h t a -> value h' (C a) = value h a;
  fc_id : forall a, in_tree h t a -> n_id (get h' (C a)) = n_id (get h a);
  fc_tags : forall a, in_tree h t a -> n_expands (get h' (C a)) = n_expands (get h a);
  fc_level : forall a, in_tree h t a -> ~ In a (t_roots t) -> level h' (C a) = level h a;
  fc_root_level : forall a, In a (t_roots t) -> level h' (C a) = Some 0;
  fc_children : forall a, in_tree h t a -> children h' (C a) = map C (rev (children h a));
  fc_parents : forall a, in_tree h t a -> Permutation (parents h' (C a)) (map C (parents h a));
  fc_roots : t_roots t' = map C (t_roots t);
  fc_sources : t_sources t' = map C (t_sources t);
  fc_levels : t_levels t' = map (map C) (t_levels t);
  fc_past : fl_items (t_past t') = fl_items (t_past t);
  fc_current_level : t_current_level t' = t_current_level t;
  fc_values : t_source_values t' = t_source_values t;
  fc_size : t_size t' = t_size t;
  fc_n_sources : t_n_sources t' = Z.of_nat (length (t_roots t))
}.

(** Tree.to_nx_graph and networkx.is_isomorphic (src/tree.py:29-45): undirected
    edges between nodes, no labels; a node without edges is not in the graph; C37 *)
Definition adjacent (h : heap Z) (t : tree Z) (a b : nat) : Prop :=
  in_tree h t a /\ in_tree h t b /\ (In b (children h a) \/ In a (children h b)).
Definition has_edge (h : heap Z) (t : tree Z) (a : nat) : Prop := exists b, adjacent h t a b.
Definition isomorphic (h : heap Z) (t u : tree Z) : Prop := exists f g : nat -> nat,
  (forall a, has_edge h t a -> has_edge h u (f a) /\ g (f a) = a) /\
  (forall b, has_edge h u b -> has_edge h t (g b) /\ f (g b) = b) /\
  (forall a b, has_edge h t a -> has_edge h t b -> (adjacent h t a b <-> adjacent h u (f a) (f b))).
(** the same network: a correspondence of nodes keeping flows and directed links *)
Definition same_network (h : heap Z) (t u : tree Z) : Prop := exists f g : nat -> nat,
  (forall a, in_tree h t a -> in_tree h u (f a) /\ g (f a) = a /\ value h (f a) = value h a) /\
  (forall b, in_tree h u b -> in_tree h t (g b) /\ f (g b) = b) /\
  (forall a b, in_tree h t a -> in_tree h t b -> (In b (children h a) <-> In (f b) (children h (f a)))).
