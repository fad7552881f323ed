(** Specification of what saving should do, independent of how it is done. *)
From Verif Require Import Base Utils Fractions Load Tree.
From Coq Require Import QArith Qcanon.
Open Scope Z_scope.

(** ** Networks *)

(** one belt between two nodes, in either direction *)
Definition neighbour (h : heap Qc) (a b : nat) : Prop := In b (n_children (get h a)) \/ In b (n_parents (get h a)).
(** the nodes that can be reached from [root] along belts in any direction *)
Inductive linked (h : heap Qc) (root : nat) : nat -> Prop :=
| linked_here : linked h root root
| linked_next a b : linked h root a -> neighbour h a b -> linked h root b.

(** node [b] of [h'] is node [a] of [h], the node rebuilt from node [x] being [m x] *)
Definition same_node (m : nat -> nat) (h : heap Qc) (a : nat) (h' : heap Qc) (b : nat) : Prop :=
  n_value (get h' b) = n_value (get h a) /\ n_id (get h' b) = n_id (get h a) /\ n_level (get h' b) = n_level (get h a) /\
  n_parents (get h' b) = map m (n_parents (get h a)) /\ n_children (get h' b) = map m (n_children (get h a)) /\
  n_expands (get h' b) = n_expands (get h a).
(** [h'] consists of copies of the nodes linked to [root], one of each *)
Definition rebuilt (h : heap Qc) (root : nat) (h' : heap Qc) (m : nat -> nat) : Prop :=
  (forall a, linked h root a -> (m a < length h')%nat /\ same_node m h a h' (m a)) /\
  (forall b, (b < length h')%nat -> exists a, linked h root a /\ m a = b) /\
  (forall a b, linked h root a -> linked h root b -> m a = m b -> a = b).
(** [roots] are the copies of the level-0 nodes *)
Definition entrances (h : heap Qc) (root : nat) (m : nat -> nat) (roots : list nat) : Prop :=
  NoDup roots /\ forall b, In b roots <-> exists a, linked h root a /\ n_level (get h a) = Some 0 /\ m a = b.

(** ** File names *)

(** "solution", "_expanded", ".png" and ".data" *)
Definition solution_name (digits suffix extension : str) : str :=
  [115; 111; 108; 117; 116; 105; 111; 110] ++ digits ++ suffix ++ extension.
Definition suffix_ok (s : str) : Prop := s = [] \/ s = [95; 101; 120; 112; 97; 110; 100; 101; 100].
Definition extension_ok (s : str) : Prop := s = [46; 112; 110; 103] \/ s = [46; 100; 97; 116; 97].
Definition all_digits (s : str) : Prop := s <> [] /\ Forall (fun c => 48 <= c <= 57) s.
(** a name starting like a produced one, leading zeros included *)
Definition looks_produced (name : str) : Prop := exists digits suffix extension rest,
  all_digits digits /\ suffix_ok suffix /\ extension_ok extension /\ name = solution_name digits suffix extension ++ rest.
