(** Independent specification vocabulary for src/cost.py: splitter trees and
    merger sequences, written without reference to the model. *)
From Verif Require Import Base.

(** A tree of splitters: a leaf is an output belt, an inner node a splitter. *)
Inductive stree := SLeaf | SNode (outs : list stree).

Fixpoint leaves (t : stree) : Z :=
  match t with
  | SLeaf => 1
  | SNode ts => fold_right (fun c acc => leaves c + acc) 0 ts
  end.

Fixpoint splitters (t : stree) : Z :=
  match t with
  | SLeaf => 0
  | SNode ts => 1 + fold_right (fun c acc => splitters c + acc) 0 ts
  end.

(** m levels of three-way splitters *)
Fixpoint ternary (m : nat) : stree :=
  match m with
  | O => SLeaf
  | S k => SNode [ternary k; ternary k; ternary k]
  end.

(** n levels of two-way splitters above m levels of three-way splitters *)
Fixpoint full (n m : nat) : stree :=
  match n with
  | O => ternary m
  | S k => SNode [full k m; full k m]
  end.

(** the subtrees of [full n m] met on the way down, one per depth *)
Fixpoint ternary_chain (m : nat) : list stree :=
  match m with
  | O => [SLeaf]
  | S k => ternary m :: ternary_chain k
  end.
Fixpoint chain (n m : nat) : list stree :=
  match n with
  | O => ternary_chain m
  | S k => full n m :: chain k m
  end.

Definition total_leaves (ts : list stree) : Z := zsum (map leaves ts).
Definition total_splitters (ts : list stree) : Z := zsum (map splitters ts).

(** [ts] is a way of taking [l] leaves of [full n m] as whole subtrees *)
Definition decomposition (n m : nat) (l : Z) (ts : list stree) : Prop :=
  Forall (fun t => In t (chain n m)) ts /\ total_leaves ts = l.

(** [merged k a b]: k mergers, each joining two or three belts into one, turn
    a belts into b belts *)
Inductive merged : nat -> Z -> Z -> Prop :=
| merged_done : forall a, merged 0 a a
| merged_two : forall k a b, 2 <= a -> merged k (a - 1) b -> merged (S k) a b
| merged_three : forall k a b, 3 <= a -> merged k (a - 2) b -> merged (S k) a b.
