(** Specification vocabulary for what loading prepares. *)
From Verif Require Import Base Cost Load SearchSpec.
From Coq Require Import QArith Qcanon.
Open Scope Z_scope.

(** the price of extracting the given flows one after the other from one flow *)
Inductive peeled : Z -> list Z -> Z -> Prop :=
| peeled_none v : peeled v [] 0
| peeled_one v x xs c r : extract_cost v x = Ok c -> peeled (v - x) xs r -> peeled v (x :: xs) (c + r).

(** the values the search relies on *)
Record prepared (p : problem) : Prop := {
  pr_min : In (p_min_target p) (p_targets p) /\ forall v, In v (p_targets p) -> p_min_target p <= v;
  pr_counts : forall v n, In (v, n) (p_target_counts p) <->
    In v (p_targets p) /\ n = Z.of_nat (occurrences v (p_targets p));
  pr_counts_once : NoDup (map fst (p_target_counts p));
  pr_gcd_pos : 0 < p_gcd p;
  pr_gcd : forall d, (d | p_gcd p) <-> (forall v, In v (p_sources p) \/ In v (p_targets p) -> (d | v));
  pr_best : exists r, peeled (zsum (p_sources p)) (p_targets p) r /\
    p_initial_best_size p = merge_cost (Z.of_nat (length (p_sources p))) 1 + r + p_size_offset p
}.
