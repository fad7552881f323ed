(** Specification vocabulary for the price of a network: what each node of a tree
    costs, read off the tree itself.  Nothing here runs the search. *)
From Verif Require Import Base Cost Load Tree TreeSpec.
Open Scope Z_scope.

Definition price_of (r : res Z) : Z := match r with Ok c => c | Err _ => 0 end.
(** a node carrying [v] that is split, by its tags: an extraction at a conveyor
    speed and a division by 2 or 3 leave no tag and take one splitter *)
Fixpoint split_price (v : Z) (tags : list tag) : Z :=
  match tags with
  | [] => 1
  | TMerge _ :: tags => split_price v tags
  | TExtract c :: _ => price_of (extract_cost v c)
  | TDivide d :: _ => price_of (divide_cost v d)
  | TSplit _ :: _ => 3
  end.
(** splitting a node into its children and merging its parents into it *)
Definition node_price (h : heap Z) (a : nat) : Z :=
  (if (2 <=? length (children h a))%nat then split_price (value h a) (n_expands (get h a)) else 0) +
  merge_cost (Z.of_nat (length (parents h a))) 1.
(** [nodes] lists the nodes of the tree; C69 *)
Definition lists_tree (h : heap Z) (t : tree Z) (nodes : list nat) : Prop :=
  NoDup nodes /\ forall a, In a nodes <-> in_tree h t a.
