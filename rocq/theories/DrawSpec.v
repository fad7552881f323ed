(** What a drawing of a network should show. *)
From Verif Require Import Base Cost Utils Fractions Load Tree Draw.
From Coq Require Import QArith Qcanon.
Open Scope Z_scope.

(** the nodes that can be reached from the roots along belts *)
Inductive fed (h : heap Qc) (roots : list nat) : nat -> Prop :=
| fed_root r : In r roots -> fed h roots r
| fed_next a b : fed h roots a -> In b (n_children (get h a)) -> fed h roots b.

(** no two drawn nodes have the same text *)
Definition readable (uid : nat -> Z) (h : heap Qc) (roots : list nat) : Prop :=
  forall a b, fed h roots a -> fed h roots b -> str_node uid h a = str_node uid h b -> a = b.

(** one box per node, with its flow in the unit of the request and its level, and
    one arrow per belt *)
Definition box (uid : nat -> Z) (ratio : Z) (h : heap Qc) (a : nat) : text * option (Qc * option Z) :=
  (str_node uid h a, Some ((n_value (get h a) / frac_of_Z ratio)%Qc, n_level (get h a))).
Definition belts (uid : nat -> Z) (h : heap Qc) (a : nat) : list (text * text) :=
  map (fun c => (str_node uid h a, str_node uid h c)) (n_children (get h a)).
Definition shows (uid : nat -> Z) (ratio : Z) (h : heap Qc) (roots : list nat) (g : graph) : Prop :=
  exists order, NoDup order /\ (forall a, In a order <-> fed h roots a) /\
    Permutation (g_nodes g) (map (box uid ratio h) order) /\
    Permutation (g_edges g) (flat_map (belts uid h) order).
(** the groups of equal rank are the nodes of equal level *)
Definition ranked (uid : nat -> Z) (h : heap Qc) (roots : list nat) (ranks : list (Z * list text)) : Prop :=
  NoDup (map fst ranks) /\ NoDup (flat_map snd ranks) /\
  forall l k, (exists ks, In (l, ks) ranks /\ In k ks) <->
    (exists a, fed h roots a /\ str_node uid h a = k /\ n_level (get h a) = Some l).
