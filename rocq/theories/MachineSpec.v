(** Specification vocabulary for the number of splitters and mergers in a drawing.
    Nothing here runs the search or the expansion. *)
From Verif Require Import Base Load Tree TreeSpec FlowSpec.
Open Scope nat_scope.

(** the belts that arrive at [y] in a drawing with the nodes [nodes]; the belt of a
    source arrives at a root *)
Definition belts_in (outs : nat -> list nat) (roots nodes : list nat) (y : nat) : nat :=
  list_sum (map (fun x => belts outs x y) nodes) + (if in_dec Nat.eq_dec y roots then 1 else 0).
(** a node with several belts out is a splitter, one with several belts in is a
    merger, one with several in and several out is a merger before a splitter *)
Definition machines (outs : nat -> list nat) (roots nodes : list nat) : nat :=
  list_sum (map (fun y => (if 2 <=? length (outs y) then 1 else 0) + (if 2 <=? belts_in outs roots nodes y then 1 else 0)) nodes).
(** A node at which the price counts one merger too many: an even number of belts
    is merged into it (the belt of a source being one of them) and its own
    splitting leads an odd number of belts back.  The price counts the mergers of
    both separately, but together they need one less. *)
Definition spared (h : heap Z) (roots : list nat) (a : nat) : bool :=
  let back := length (flat_map (returned (value h a)) (n_expands (get h a))) in
  Nat.odd back && Nat.even (length (arriving h a) - back + (if in_dec Nat.eq_dec a roots then 1 else 0)).
