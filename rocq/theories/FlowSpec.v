(** What it means for an expanded drawing to be a network that works in the game:
    belts, splitters and mergers through which the flows of the sources arrive as
    the flows of the targets.  Only the fields of nodes are read here. *)
From Verif Require Import Base Cost Utils Fractions Load Tree TreeSpec Expand ExpandSpec SavedSpec.
From Coq Require Import QArith Qcanon.
Open Scope Z_scope.

(** the nodes of a drawing: what is reached from its roots along child links *)
Inductive reached (outs : nat -> list nat) (roots : list nat) : nat -> Prop :=
| reached_root r : In r roots -> reached outs roots r
| reached_out x y : reached outs roots x -> In y (outs x) -> reached outs roots y.

Definition speeds : list Z := [60; 120; 270; 480; 780; 1200].

Section Flow.
(** [outs x]: the nodes at the other ends of the belts that leave [x];
    [through x]: the flow that passes [x]; [belt x y]: the flow on each belt from
    [x] to [y] *)
Variables (outs : nat -> list nat) (through : nat -> Qc) (belt : nat -> nat -> Qc).

(** how a node can hand on its flow *)
Inductive hands_on (x : nat) : Prop :=
(* a belt, or a splitter with two or three outputs *)
| on_equally : (1 <= length (outs x) <= 3)%nat ->
    (forall y, In y (outs x) -> belt x y = (through x / frac_of_Z (Z.of_nat (length (outs x))))%Qc) -> hands_on x
(* a splitter with one output onto a slower belt, which is full; the rest leaves by the other output *)
| on_overflowing y z s : Permutation (outs x) [y; z] -> y <> z -> In s speeds -> belt x y = frac_of_Z s ->
    belt x z = (through x - frac_of_Z s)%Qc -> hands_on x
(* a splitter with one output that takes no more because the slower belt behind it,
   which also carries what comes back from the splitter [y], is full *)
| on_backing_up y z s : Permutation (outs x) [y; z] -> y <> z -> In y (outs y) -> In s speeds -> through y = frac_of_Z s ->
    belt x z = (through x - belt x y)%Qc -> hands_on x.
End Flow.

(** the belts from [x] to [y] *)
Definition belts (outs : nat -> list nat) (x y : nat) : nat := count_occ Nat.eq_dec (outs x) y.

(** The network below [roots] works: what flows into a node is what [input] brings
    from outside and what arrives on belts, and every node hands it on. *)
Record works (outs : nat -> list nat) (roots : list nat) (input : nat -> Qc) (nodes : list nat) (through : nat -> Qc) (belt : nat -> nat -> Qc) : Prop := {
  wk_distinct : NoDup nodes;
  wk_nodes : forall x, In x nodes <-> reached outs roots x;
  wk_balance : forall y, In y nodes -> through y =
    ((if in_dec Nat.eq_dec y roots then input y else Q2Qc 0) + qcsum (map (fun x => frac_of_Z (Z.of_nat (belts outs x y)) * belt x y) nodes))%Qc;
  wk_splits : forall x, In x nodes -> outs x = [] \/ hands_on outs through belt x;
  wk_positive : forall x, In x nodes -> (Q2Qc 0 < through x)%Qc /\ forall y, In y (outs x) -> (Q2Qc 0 < belt x y)%Qc;
  (* at most three belts lead into a node, at most two if a source does *)
  wk_inputs : forall y, In y nodes ->
    (list_sum (map (fun x => belts outs x y) nodes) <= if in_dec Nat.eq_dec y roots then 2 else 3)%nat
}.

(** The drawing [g] brings the flows of its roots to its ends as [targets], and no
    node of it passes more than [M]. *)
Definition delivers (g : heap Qc) (roots : list nat) (targets : list Z) (M : Z) : Prop := exists nodes through belt,
  works (fun x => n_children (get g x)) roots (fun r => n_value (get g r)) nodes through belt /\
  Permutation (map through (filter (fun x => match n_children (get g x) with [] => true | _ => false end) nodes)) (map frac_of_Z targets) /\
  forall x, In x nodes -> (through x <= frac_of_Z M)%Qc.

(** ** Belts that get lost.  Several belts from one splitter to one node are all
    cut when one of them is led to a merger (src/node.py:468-472). *)

(** In a splitter tree with [n] levels of two-way above [m] levels of three-way
    splitters, [q] of the bottom slots are served by [cuts n m q k] whole
    subtrees of level [k]; the levels of the belts to these. *)
Definition cuts (n m : nat) (q : Z) (k : nat) : Z := q / under n m k - radix n k * (q / under n m (k - 1)).
Definition belt_levels (n m : nat) (q : Z) : list nat := flat_map (fun k => repeat k (Z.to_nat (cuts n m q k))) (seq 1 (n + m)).
(** the belts that the expansion of a tag leads back to its node, which carries [v] *)
Definition returned (v : Z) (t : tag) : list nat :=
  match branches v t with
  | Some d => match find_n_m_l d with Ok (n, m, l, _) => belt_levels n m l | Err _ => [] end
  | None => []
  end.
(** the belts by which [x], once expanded, delivers to its child [y] *)
Definition extraction (t : tag) : bool := match t with TExtract _ => true | _ => false end.
Definition delivered (h : heap Z) (x y : nat) : list nat :=
  match find extraction (n_expands (get h x)) with
  | Some (TExtract c) =>
    match find_n_m_l (value h x / Z.gcd (value h x) c) with
    | Ok (n, m, _, _) => belt_levels n m (value h y / Z.gcd (value h x) c)
    | Err _ => []
    end
  | _ => [O]
  end.
(** all the belts that arrive at [y], by origin and level, in their order; belts
    of the same origin and level may come from the same splitter *)
Definition arriving (h : heap Z) (y : nat) : list (nat * nat) :=
  flat_map (fun x => map (pair x) (delivered h x y)) (parents h y) ++
  map (pair y) (flat_map (returned (value h y)) (n_expands (get h y))).
(** how many of [k] belts still lead to the node itself when mergers take three of
    them at a time, the last ones first, until no more than [cap] are left *)
Definition kept (cap k : nat) : nat := if (k <=? cap)%nat then k else if Nat.even (k - cap) then (cap - 1)%nat else (cap - 2)%nat.
Definition torn (h : heap Z) (y : nat) : Prop :=
  let l := arriving h y in
  let k := kept (if (length (parents h y) =? 0)%nat then 2 else 3) (length l) in
  exists b, In b (firstn k l) /\ In b (skipn k l).
