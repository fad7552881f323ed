(** Property theorem C69: the size the search minimises. *)
From Verif Require Import Base Cost Load Tree TreeSpec Search SearchSpec SizeSpec SizeProofs SearchWitness.
Open Scope Z_scope.

(** C69: the size of every tree of a run is the sum of the prices of its nodes. *)
Theorem C69_size_is_the_price_of_the_nodes : forall p R fuel t nodes, loaded p ->
  let s := snd (solve R fuel p) in
  In t (explored p (s_log s)) -> lists_tree (s_heap s) t nodes ->
  t_size t = zsum (map (node_price (s_heap s)) nodes).
Proof. exact c69_size_lemma. Qed.
Print Assumptions C69_size_is_the_price_of_the_nodes.

(** C69: and every tree has such a list. *)
Theorem C69_every_tree_is_listed : forall p R fuel t, loaded p ->
  let s := snd (solve R fuel p) in
  In t (explored p (s_log s)) -> exists nodes, lists_tree (s_heap s) t nodes.
Proof. exact c69_listed_lemma. Qed.
Print Assumptions C69_every_tree_is_listed.

(** "9 to 4 5": a solution of size 4 *)
Example C69_witness : loaded p_9 /\ let s := snd (solve R0 10 p_9) in
  exists t nodes, In t (explored p_9 (s_log s)) /\ lists_tree (s_heap s) t nodes /\ t_size t = 4 /\ t_source_values t = [4; 5].
Proof. exact c69_example_lemma. Qed.
