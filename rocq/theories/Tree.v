(** Model of the graph part of src/node.py and of src/tree.py.

    Objects live in one global heap, a list of nodes; a node is referred to by
    its address (its position).  Python compares nodes by identity, so addresses
    are compared.  [Node.__eq__] would come from treelike.TreeLike, which is
    assumed not to define it (nor __bool__/__len__). *)
From Verif Require Import Base Cost Utils Fractions Load.
Open Scope Z_scope.

(** Node values are ints during the search and Fractions after expansion: what
    the code needs of them. *)
Class Value (V : Type) := {
  v_dflt : V;                (* contents of a dangling address; never observed *)
  v_leb : V -> V -> bool;
  v_eqb : V -> V -> bool
}.
#[global] Instance value_Z : Value Z := {| v_dflt := 0; v_leb := Z.leb; v_eqb := Z.eqb |}.
#[global] Instance value_Qc : Value Qc :=
  {| v_dflt := Q2Qc 0; v_leb := frac_leb; v_eqb := frac_eqb |}.

(** src/node.py:15-29.  node_id is uuid4(), assumed never to collide; the model
    uses the address the node is created at, which is never reused.  The repr_*
    settings are dropped. *)
Record node (V : Type) := MkNode {
  n_value : V;
  n_id : nat;
  n_level : option Z;
  n_past : fastlist V;
  n_parents : list nat;
  n_children : list nat;
  n_expands : list tag;
  n_levels_to_add : Z
}.
Arguments MkNode {V}.
Arguments n_value {V}.
Arguments n_id {V}.
Arguments n_level {V}.
Arguments n_past {V}.
Arguments n_parents {V}.
Arguments n_children {V}.
Arguments n_expands {V}.
Arguments n_levels_to_add {V}.

Definition heap (V : Type) : Type := list (node V).

Section Heap.
Context {V : Type} {VV : Value V}.

Definition dead_node : node V := MkNode v_dflt O None fl_new [] [] [] 0.
(** the object at an address *)
Definition get (h : heap V) (a : nat) : node V := nth a h dead_node.

Definition set_level (l : option Z) (n : node V) : node V :=
  MkNode (n_value n) (n_id n) l (n_past n) (n_parents n) (n_children n) (n_expands n)
    (n_levels_to_add n).
Definition set_parents (ps : list nat) (n : node V) : node V :=
  MkNode (n_value n) (n_id n) (n_level n) (n_past n) ps (n_children n) (n_expands n)
    (n_levels_to_add n).
Definition set_children (cs : list nat) (n : node V) : node V :=
  MkNode (n_value n) (n_id n) (n_level n) (n_past n) (n_parents n) cs (n_expands n)
    (n_levels_to_add n).
Definition set_expands (ts : list tag) (n : node V) : node V :=
  MkNode (n_value n) (n_id n) (n_level n) (n_past n) (n_parents n) (n_children n) ts
    (n_levels_to_add n).
Definition set_levels_to_add (k : Z) (n : node V) : node V :=
  MkNode (n_value n) (n_id n) (n_level n) (n_past n) (n_parents n) (n_children n)
    (n_expands n) k.
(** x.parents.append(p), x.children.append(c), x._expands.append(t) *)
Definition add_parent (p : nat) (n : node V) : node V := set_parents (n_parents n ++ [p]) n.
Definition add_child (c : nat) (n : node V) : node V := set_children (n_children n ++ [c]) n.
Definition add_tag (t : tag) (n : node V) : node V := set_expands (n_expands n ++ [t]) n.

(** Tree, src/tree.py:5-18 *)
Record tree := MkTree {
  t_roots : list nat;
  t_sources : list nat;
  t_levels : list (list nat);
  t_past : fastlist (list V);
  t_current_level : Z;
  t_source_values : list V;
  t_n_sources : Z;
  t_size : Z
}.

(** == on tuples *)
Fixpoint tuple_eqb (a b : list V) : bool :=
  match a, b with
  | [], [] => true
  | x :: a', y :: b' => v_eqb x y && tuple_eqb a' b'
  | _, _ => false
  end.

(** Node.get_node_values, src/node.py:585-587 *)
Definition node_values (h : heap V) (l : list nat) : list V := map (fun a => n_value (get h a)) l.

(** x.level = l for every x of a list *)
Definition set_levels (l : Z) (nodes : list nat) (h : heap V) : heap V :=
  fold_left (fun h a => upd a (set_level (Some l)) h) nodes h.

(** Tree.__init__, src/tree.py:6-18 *)
Definition tree_new (h : heap V) (roots : list nat) : heap V * tree :=
  (set_levels 0 roots h,
   MkTree roots roots [roots] fl_new 0 (node_values h roots) (Z.of_nat (length roots)) 0).

(** the key function of Tree.add's insort *)
Definition node_le (h : heap V) (a b : nat) : bool := v_leb (n_value (get h a)) (n_value (get h b)).

(** Tree.add, src/tree.py:61-79; nodes[0] raises IndexError on an empty list *)
Definition tree_add (h : heap V) (t : tree) (nodes : list nat) (cost : Z) : res (heap V * tree) :=
  match nodes with
  | [] => Err IndexError
  | first :: _ =>
    let current_level := t_current_level t + 1 in
    let parents := n_parents (get h first) in
    let kept := filter (fun a => negb (existsb (Nat.eqb a) parents)) (last (t_levels t) []) in
    let sources := fold_left (fun l a => insort_by (node_le h) a l) nodes kept in
    Ok (set_levels current_level sources h,
        MkTree (t_roots t) sources (t_levels t ++ [sources])
          (fl_append tuple_eqb (t_source_values t) (t_past t))
          current_level (node_values h sources) (Z.of_nat (length sources))
          (t_size t + cost))
  end.

(** first part of Tree.attach_leaves, src/tree.py:212-222, for one source: adopt
    the children of the leaf *)
Definition adopt (h : heap V) (src leaf : nat) : heap V :=
  let h := fold_left (fun h c => upd c (set_parents [src]) (upd src (add_child c) h))
                     (n_children (get h leaf)) h in
  let n := length (n_children (get h src)) in
  if (3 <? n)%nat then upd src (add_tag (TDivide (Z.of_nat n))) h else h.
(** Simplification: the list [levels] holds the nodes whose children lists are
    to be added instead of the children lists themselves; the lists are not
    changed by the loop. *)
Fixpoint attach_loop (fuel : nat) (h : heap V) (t : tree) (levels : list nat) : res (heap V * tree) :=
  match levels with
  | [] => Ok (h, t)
  | p :: levels =>
    match fuel with
    | O => Err OutOfFuel
    | S fuel =>
      let level := n_children (get h p) in
      do (h, t) <- tree_add h t level 0;
      attach_loop fuel h t
        (levels ++ filter (fun a => negb (length (n_children (get h a)) =? 0)%nat) level)
    end
  end.
(** Tree.attach_leaves, src/tree.py:210-231 *)
Definition attach_leaves (fuel : nat) (h : heap V) (t : tree) (leaves : list nat)
  : res (heap V * tree) :=
  if negb (Z.of_nat (length leaves) =? t_n_sources t) then Err AssertionError
  else
    let h := fold_left (fun h p => adopt h (fst p) (snd p)) (combine (t_sources t) leaves) h in
    attach_loop fuel h t
      (filter (fun a => negb (length (n_children (get h a)) =? 0)%nat) (t_sources t)).
End Heap.
Arguments tree : clear implicits.
Arguments MkTree {V}.
Arguments t_roots {V}.
Arguments t_sources {V}.
Arguments t_levels {V}.
Arguments t_past {V}.
Arguments t_current_level {V}.
Arguments t_source_values {V}.
Arguments t_n_sources {V}.
Arguments t_size {V}.

(** ** Copying *)

(** copied_nodes: association list from the address of a node to the address of
    its copy *)
Definition lookup (copied : list (nat * nat)) (a : nat) : option nat :=
  option_map snd (find (fun p => (fst p =? a)%nat) copied).
(** copied_nodes[node], for a node that is in it *)
Definition copy_of (copied : list (nat * nat)) (a : nat) : nat :=
  match lookup copied a with Some c => c | None => O end.

(** "if parent: parent.children.append(new_node)", src/node.py:137 *)
Definition link_child (parent : option nat) (c : nat) (h : heap Z) : heap Z :=
  match parent with Some p => upd p (add_child c) h | None => h end.

(** Node._deepcopy, src/node.py:120-138.  The top of the Python stack is the
    head of the list, so stack.extend pushes the children reversed.  [self_past]
    is self.past, read from the original root. *)
Fixpoint copy_loop (fuel : nat) (self_past : list Z) (stack : list (nat * option nat))
    (copied : list (nat * nat)) (h : heap Z) : res (list (nat * nat) * heap Z) :=
  match stack with
  | [] => Ok (copied, h)
  | (a, parent) :: stack =>
    match fuel with
    | O => Err OutOfFuel
    | S fuel =>
      match lookup copied a with
      | Some c =>
        let h := match parent with Some p => upd c (add_parent p) h | None => h end in
        copy_loop fuel self_past stack copied (link_child parent c h)
      | None =>
        let n := get h a in
        if n_value n <? 0 then Err ValueError else
        let c := length h in
        let past := fl_extend Z.eqb self_past (fl_append Z.eqb (n_value n) fl_new) in
        let new := MkNode (n_value n) (n_id n) (n_level n) past
                     (match parent with Some p => [p] | None => [] end) [] (n_expands n) 0 in
        let stack := rev (map (fun ch => (ch, Some c)) (n_children n)) ++ stack in
        copy_loop fuel self_past stack ((a, c) :: copied) (link_child parent c (h ++ [new]))
      end
    end
  end.
(** enough fuel for a traversal of the whole heap: one step per edge and one for
    the root *)
Definition copy_fuel (h : heap Z) : nat :=
  S (fold_right (fun n k => length (n_children n) + k)%nat O h).
Definition node_deepcopy (copied : list (nat * nat)) (h : heap Z) (a : nat)
  : res (list (nat * nat) * heap Z) :=
  copy_loop (copy_fuel h) (fl_items (n_past (get h a))) [(a, None)] copied h.
(** src/tree.py:48-49: the roots one after the other, sharing copied_nodes *)
Fixpoint copy_roots (roots : list nat) (copied : list (nat * nat)) (h : heap Z)
  : res (list (nat * nat) * heap Z) :=
  match roots with
  | [] => Ok (copied, h)
  | r :: roots => do (copied, h) <- node_deepcopy copied h r; copy_roots roots copied h
  end.
(** copied_nodes[node] raises KeyError for a node that was not copied *)
Definition look_all (copied : list (nat * nat)) (l : list nat) : res (list nat) :=
  map_res (fun a => match lookup copied a with Some c => Ok c | None => Err KeyError end) l.
(** Tree.deepcopy, src/tree.py:47-59 *)
Definition tree_deepcopy (h : heap Z) (t : tree Z) : res (heap Z * tree Z) :=
  do (copied, h) <- copy_roots (t_roots t) [] h;
  do roots <- look_all copied (t_roots t);
  let (h, new) := tree_new h roots in
  do sources <- look_all copied (t_sources t);
  do levels <- map_res (look_all copied) (t_levels t);
  Ok (h, MkTree (t_roots new) sources levels
           (fl_extend tuple_eqb (fl_items (t_past t)) fl_new)
           (t_current_level t) (t_source_values t) (t_n_sources new) (t_size t)).

(** ** Operations of the search *)

(** one Node(v, parent_past=self.past, level=self.level + 1) of a list
    comprehension, src/node.py:157, 167, 197, already linked to its parent (the
    loops "for node in new_nodes" only add these links; the past of the parent is
    never empty, a FastList is truthy when it has items) *)
Definition new_child (h : heap Z) (a : nat) (v : Z) : res (heap Z * nat) :=
  if v <? 0 then Err ValueError else
  match n_level (get h a) with
  | None => Err TypeError
  | Some l =>
    Ok (h ++ [MkNode v (length h) (Some (l + 1))
                (fl_extend Z.eqb (fl_items (n_past (get h a))) (fl_append Z.eqb v fl_new))
                [a] [] [] 0],
        length h)
  end.
Fixpoint new_children (h : heap Z) (a : nat) (vs : list Z) : res (heap Z * list nat) :=
  match vs with
  | [] => Ok (h, [])
  | v :: vs =>
    do (h, c) <- new_child h a v;
    do (h, cs) <- new_children h a vs;
    Ok (h, c :: cs)
  end.
(** new_nodes created and linked: self._children.append(node) for each *)
Definition branch (h : heap Z) (a : nat) (vs : list Z) : res (heap Z * list nat) :=
  do (h, cs) <- new_children h a vs;
  Ok (fold_left (fun h c => upd a (add_child c) h) cs h, cs).

(** Node.extract, src/node.py:153-161 *)
Definition node_extract (h : heap Z) (a : nat) (value : Z) : res (heap Z * list nat) :=
  let h := if zmem value conveyor_speeds then h else upd a (add_tag (TExtract value)) h in
  let overflow_value := n_value (get h a) - value in
  branch h a (zsorted [value; overflow_value]).

(** Node.divide, src/node.py:163-171; int // 0 raises *)
Definition node_divide (h : heap Z) (a : nat) (divisor : Z) : res (heap Z * list nat) :=
  if divisor =? 0 then Err ZeroDivisionError else
  let h := if divisor >? 3 then upd a (add_tag (TDivide divisor)) h else h in
  let divided_value := n_value (get h a) / divisor in
  branch h a (repeat divided_value (Z.to_nat divisor)).

(** Node.split, src/node.py:191-202 *)
Definition node_split (h : heap Z) (a : nat) (conveyor_speed : Z) : res (heap Z * list nat) :=
  if negb (zmem conveyor_speed conveyor_speeds) then Err SystemExit else
  let new_value := conveyor_speed / 3 in
  let overflow_value := n_value (get h a) - new_value * 2 in
  do (h, cs) <- branch h a (zsorted [new_value; new_value; overflow_value]);
  Ok (upd a (add_tag (TSplit conveyor_speed)) h, cs).

(** max of levels; None (no level) compared with anything is a TypeError, an
    empty max a ValueError *)
Definition max_level (h : heap Z) (nodes : list nat) : res Z :=
  do ls <- map_res (fun a => match n_level (get h a) with Some l => Ok l | None => Err TypeError end)
             nodes;
  match zmax ls with Some l => Ok l | None => Err ValueError end.

(** Node.merge, src/node.py:173-189, on nodes without children.  (A node with
    children would contribute a Fraction; the search never merges one, see C21,
    and the model reports TypeError.)  The links and pasts of lines 185-188. *)
Definition node_merge (h : heap Z) (nodes : list nat) : res (heap Z * nat) :=
  if existsb (fun a => negb (length (n_children (get h a)) =? 0)%nat) nodes then Err TypeError else
  let summed_value := zsum (node_values h nodes) in
  if summed_value <? 0 then Err ValueError else
  do l <- max_level h nodes;
  let n := length nodes in
  if (n <=? 1)%nat then Err SystemExit else
  let c := length h in
  let past := fold_left (fun p a => fl_extend Z.eqb (fl_items (n_past (get h a))) p) nodes
                        (fl_append Z.eqb summed_value fl_new) in
  let new := MkNode summed_value c (Some (l + 1)) past nodes []
               (if (3 <? n)%nat then [TMerge 3] else []) 0 in
  Ok (fold_left (fun h a => upd a (add_child c) h) nodes (h ++ [new]), c).
