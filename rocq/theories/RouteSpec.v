(** Specification vocabulary for the ways from the sources to the targets, in terms
    of flows alone.  Nothing here runs the model. *)
From Verif Require Import Base Cost Utils Load SearchSpec.
Open Scope Z_scope.

(** operations on flows *)
Inductive flow_op :=
| FExtract (v c : Z)       (* take [c] out of [v] *)
| FDivide (v d : Z)        (* [v] in [d] equal parts *)
| FSplit (v c : Z)         (* [v], not filling a belt of speed [c], in three *)
| FMerge (vs : list Z).    (* join *)
Definition uses (o : flow_op) : list Z :=
  match o with FExtract v _ | FDivide v _ | FSplit v _ => [v] | FMerge vs => vs end.
Definition makes (o : flow_op) : list Z :=
  match o with
  | FExtract v c => [c; v - c]
  | FDivide v d => repeat (v / d) (Z.to_nat d)
  | FSplit v c => [c / 3; c / 3; v - 2 * (c / 3)]
  | FMerge vs => [zsum vs]
  end.
(** it can be built *)
Definition allowed (o : flow_op) : Prop :=
  match o with
  | FExtract v c => 0 < c /\ 2 * c < v
  | FDivide v d => 2 <= d /\ (d | v)
  | FSplit v c => In c [60; 120; 270; 480; 780; 1200] /\ 2 * (c / 3) < v < c /\
      (forall c', In c' [60; 120; 270; 480; 780; 1200] -> v < c' -> c <= c')
  | FMerge vs => (2 <= length vs)%nat /\ zsum vs <= 1200
  end.
(** what it takes *)
Definition costs (o : flow_op) (cost : Z) : Prop :=
  match o with
  | FExtract v c => extract_cost v c = Ok cost
  | FDivide v d => divide_cost v d = Ok cost
  | FSplit _ _ => cost = 3
  | FMerge vs => cost = merge_cost (Z.of_nat (length vs)) 1
  end.

(** A way from the sources of a problem to the flows [flows], of total cost [size],
    that respects the rules of the search.  [last]: the flows used by the last
    operation, [before]: the earlier collections of flows. *)
Inductive route (p : problem) : list Z -> list Z -> list (list Z) -> Z -> Prop :=
| route_start : route p (p_sources p) [] [] 0
| route_step flows last before size o cost flows' rest :
    route p flows last before size -> allowed o -> costs o cost ->
    Permutation flows (uses o ++ rest) -> Permutation flows' (makes o ++ rest) -> StronglySorted Z.le flows' ->
    (* no flow is used that is wanted as it is *)
    (forall v, In v (uses o) -> (occurrences v (p_targets p) < occurrences v flows)%nat) ->
    (* no flow is smaller than the common divisor, and neither a source nor a flow just used comes back *)
    (forall v, In v (makes o) -> p_gcd p <= v /\ ~ In v (p_sources p) /\ ~ In v last) ->
    (* flows are only divided while one is larger than some target *)
    ((exists vs, o = FMerge vs) \/ exists v w, In v flows /\ In w (p_targets p) /\ w < v) ->
    (* the flows are new *)
    ~ In flows' before ->
    route p flows' (uses o) (flows :: before) (size + cost).
