(** Property theorems C58 and C44 (first solution). *)
From Verif Require Import Base BaseLemmas Cost Utils Fractions Load LoadSpec Tree TreeSpec Search SearchSpec RealSpec SearchWitness Expand
  Conclude ConcludeSpec Draw DrawSpec DrawProofs DrawWitness.
From Coq Require Import QArith Qcanon.
Open Scope Z_scope.

(** C58.  Full statement: whatever ids the nodes are given, as long as they are
    distinct, each solution saved is drawn with one box per node and one arrow per
    belt.  False: pygraphviz knows a node by its text, which has only the last
    three digits of the id; the two ends of "12 to 6 6" may become one box. *)
Theorem C58_drawing_shows_network_refuted : ~ (forall p R fuel uid, loaded p -> realistic p R -> (forall a b, uid a = uid b -> a = b) -> exists n0, forall n f, (n0 <= n)%nat ->
  In f (fst (conclude n (fun _ => true) p (snd (solve R fuel p)))) ->
  exists h' g, draw n uid (p_unit_flow_ratio p) (sv_heap f) (sv_roots f) = Ok (h', g) /\ shows uid (p_unit_flow_ratio p) (sv_heap f) (sv_roots f) g).
Proof. exact c58_refuted_lemma. Qed.
Print Assumptions C58_drawing_shows_network_refuted.

(** If no two nodes have the same text, the drawing shows the network and groups
    the nodes by level. *)
Theorem C58_drawing_shows_network_partial : forall uid ratio h roots fuel, (length h < fuel)%nat ->
  (forall a, fed h roots a -> (a < length h)%nat) -> readable uid h roots ->
  (forall r, In r roots -> n_level (get h r) = Some 0) -> (forall a, fed h roots a -> n_level (get h a) <> None) ->
  exists g ranks, draw fuel uid ratio h roots = Ok (h, g) /\ shows uid ratio h roots g /\ rank_nodes g = Ok ranks /\ ranked uid h roots ranks.
Proof. exact c58_partial_lemma. Qed.
Print Assumptions C58_drawing_shows_network_partial.

(** "12 to 6 6", with ids that end differently *)
Example C58_witness : let h := sv_heap (f_12 0) in let roots := sv_roots (f_12 0) in
  (forall a, fed h roots a -> (a < length h)%nat) /\ readable own_end h roots /\
  (forall r, In r roots -> n_level (get h r) = Some 0) /\ (forall a, fed h roots a -> n_level (get h a) <> None) /\ fed h roots 3.
Proof. exact c58_example. Qed.

(** The first solution saved meets the other conditions. *)
Theorem C58_first_solution_drawn_partial : forall p R fuel t rest concluding n, loaded p ->
  let s := snd (solve R fuel p) in
  s_solutions s = t :: rest -> (concluding O = true \/ rest = []) ->
  (length (s_heap s) + list_sum (map gsize (p_leaves p)) <= n)%nat ->
  exists f files r, conclude n concluding p s = (f :: files, r) /\ sv_index f = O /\ sv_expanded f = false /\
    forall uid m, readable uid (sv_heap f) (sv_roots f) -> (length (sv_heap f) < m)%nat ->
    exists g ranks, draw m uid (p_unit_flow_ratio p) (sv_heap f) (sv_roots f) = Ok (sv_heap f, g) /\
      shows uid (p_unit_flow_ratio p) (sv_heap f) (sv_roots f) g /\ rank_nodes g = Ok ranks /\ ranked uid (sv_heap f) (sv_roots f) ranks.
Proof. exact c58_first_solution_lemma. Qed.
Print Assumptions C58_first_solution_drawn_partial.

(** C44: what the .data file of the first solution holds rebuilds all that is
    linked to its first root.  Missing: the other roots (see
    C44_whole_network_refuted) and the expanded networks. *)
Theorem C44_first_solution_round_trip_partial : forall p R fuel t rest concluding n, loaded p ->
  let s := snd (solve R fuel p) in
  s_solutions s = t :: rest -> (concluding O = true \/ rest = []) ->
  (length (s_heap s) + list_sum (map gsize (p_leaves p)) <= n)%nat ->
  exists f files r, conclude n concluding p s = (f :: files, r) /\ sv_index f = O /\ sv_expanded f = false /\
    forall m, (length (sv_heap f) < m)%nat -> let root := hd O (sv_roots f) in
    exists data h' roots k, wrap m (sv_heap f) root = Ok data /\ unwrap data = Ok (h', roots) /\
      rebuilt (sv_heap f) root h' k /\ entrances (sv_heap f) root k roots.
Proof. exact c44_first_solution_lemma. Qed.
Print Assumptions C44_first_solution_round_trip_partial.

Example C58_first_witness : loaded p_12 /\ length (s_solutions (snd (solve (real p_12) 3 p_12))) = 1%nat /\
  (length (s_heap (snd (solve (real p_12) 3 p_12))) + list_sum (map gsize (p_leaves p_12)) <= 10)%nat.
Proof. split; [exact p_12_loaded|]. vm_compute. split; [reflexivity|lia]. Qed.
