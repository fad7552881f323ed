(** Property theorems C10 (what loading prepares for the search) and C57. *)
From Verif Require Import Base Cost Load Tree Search SearchSpec InitialSpec InitialProofs SearchWitness.
From Coq Require Import QArith Qcanon.
Open Scope Z_scope.

(** C10: the smallest target, the number of each target, the greatest common
    divisor of all flows and the initial bound on the size. *)
Theorem C10_load_prepares_search : forall p, loaded p -> prepared p.
Proof. exact loaded_prepared. Qed.
Print Assumptions C10_load_prepares_search.

(** C57: merging all sources and extracting the targets one after the other is a
    way to reach the targets, and costs what the initial bound says. *)
Theorem C57_initial_bound_is_attained : forall p, loaded p -> exists h t,
  leads (fst (initial_tree p)) (snd (initial_tree p)) h t /\
  t_source_values t = p_targets p /\ t_size t + p_size_offset p = p_initial_best_size p.
Proof. exact c57_initial_bound_is_attained_lemma. Qed.
Print Assumptions C57_initial_bound_is_attained.

(** "9 to 4 5" *)
Example C57_witness : loaded p_9 /\ p_targets p_9 = [4; 5] /\ p_min_target p_9 = 4 /\ p_gcd p_9 = 1 /\
  p_target_counts p_9 = [(4, 1); (5, 1)] /\ p_initial_best_size p_9 = 4.
Proof. split; [exact p_9_loaded|vm_compute; auto 10]. Qed.
