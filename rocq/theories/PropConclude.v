(** Theorems about attaching the target groups and saving the solutions. *)
From Verif Require Import Base BaseLemmas Cost Utils Fractions Load LoadSpec Tree TreeSpec Search SearchSpec RealSpec SearchWitness Expand
  Conclude ConcludeSpec ConcludeProofs SaveProofs ConcludeWitness.
From Coq Require Import QArith Qcanon.
Open Scope Z_scope.

(** C22, second half: with the target groups attached, a solution is a levelled
    network from the sources whose open ends are the target integers, and every
    node with more than three belts carries the right tags. *)
Theorem C22_attached_solutions_deliver_integers : forall p R fuel t, loaded p ->
  let s := snd (solve R fuel p) in
  In t (s_solutions s) ->
  let (h, leaves) := plant (s_heap s) (p_leaves p) in
  exists h' t',
    (forall n, (length h <= n)%nat -> attach_leaves n (map node_frac h) (tree_frac t) leaves = Ok (map node_frac h', tree_frac t')) /\
    network h' t' (p_sources p) /\ levelled h' t' /\ (forall a, in_tree h' t' a -> tagged h' a) /\
    Permutation (t_source_values t') (p_target_integers p) /\ t_roots t' = t_roots t /\ t_size t' = t_size t.
Proof. exact c22_attached_solutions_lemma. Qed.
Print Assumptions C22_attached_solutions_deliver_integers.

Example C22_attached_witness : loaded p_30 /\ length (s_solutions (snd (solve (real p_30) 50 p_30))) = 2%nat /\
  p_sources p_30 = [30] /\ p_targets p_30 = [10; 20] /\ p_target_integers p_30 = [1; 1; 1; 1; 1; 5; 20].
Proof. exact c43_first_example. Qed.

(** C41.  Saving all recorded solutions ends without an exception.  False: "1010
    to 202 808" stopped after its first solution raises TypeError while this
    solution is expanded. *)
Theorem C41_expanded_solutions_saved_refuted :
  ~ (forall p R fuel, loaded p -> realistic p R -> exists n0, forall n, (n0 <= n)%nat -> exists h, snd (conclude n (fun _ => true) p (snd (solve R fuel p))) = Ok h).
Proof. exact c41_refuted_lemma. Qed.
Print Assumptions C41_expanded_solutions_saved_refuted.

(** C43.  Full statement: every recorded solution that could be saved alone is
    saved.  False: the nodes of a target group are shared by the solutions, so
    after the first solution of "30 to 1 1 1 1 1 5 20" is expanded the second
    attach_leaves does not end. *)
Theorem C43_saved_whenever_possible_refuted : ~ (forall p R fuel i, loaded p -> realistic p R ->
  let s := snd (solve R fuel p) in
  (i < length (s_solutions s))%nat ->
  (forall t, In t (s_solutions s) -> exists n0, forall n, (n0 <= n)%nat ->
     let (h, leaves) := plant (s_heap s) (p_leaves p) in
     exists h', snd (save_all n (fun _ => true) 0 (map node_frac h) leaves [tree_frac t]) = Ok h') ->
  exists n0, forall n, (n0 <= n)%nat -> exists f, In f (fst (conclude n (fun _ => true) p s)) /\ sv_index f = i).
Proof. exact c43_refuted_lemma. Qed.
Print Assumptions C43_saved_whenever_possible_refuted.

(** The first solution is drawn as a network that delivers the target integers. *)
Theorem C43_first_solution_saved_partial : forall p R fuel t rest concluding n, loaded p ->
  let s := snd (solve R fuel p) in
  s_solutions s = t :: rest -> (concluding O = true \/ rest = []) ->
  (length (s_heap s) + list_sum (map gsize (p_leaves p)) <= n)%nat ->
  exists h' t' files r,
    conclude n concluding p s = (MkSaved 0 false (map node_frac (set_levels 0 (t_roots t) h')) (t_roots t) :: files, r) /\
    network h' t' (p_sources p) /\ levelled h' t' /\ (forall a, in_tree h' t' a -> tagged h' a) /\
    Permutation (t_source_values t') (p_target_integers p) /\ t_roots t' = t_roots t.
Proof. exact c43_first_solution_lemma. Qed.
Print Assumptions C43_first_solution_saved_partial.

Example C43_first_witness : loaded p_30 /\ length (s_solutions (snd (solve (real p_30) 50 p_30))) = 2%nat /\
  p_sources p_30 = [30] /\ p_targets p_30 = [10; 20] /\ p_target_integers p_30 = [1; 1; 1; 1; 1; 5; 20].
Proof. exact c43_first_example. Qed.

(** When no two targets are equal, every solution drawn is drawn as the search
    left it, whatever was saved and expanded before. *)
Theorem C43_distinct_targets_partial : forall p R fuel n concluding f, loaded p -> NoDup (p_target_integers p) ->
  let s := snd (solve R fuel p) in
  In f (fst (conclude n concluding p s)) -> sv_expanded f = false ->
  exists t, nth_error (s_solutions s) (sv_index f) = Some t /\ sv_roots f = t_roots t /\
    forall a, in_tree (s_heap s) t a -> get (sv_heap f) a = node_frac (get (set_levels 0 (t_roots t) (s_heap s)) a).
Proof. exact c43_distinct_targets_lemma. Qed.
Print Assumptions C43_distinct_targets_partial.

Example C43_distinct_witness : loaded p_15 /\ NoDup (p_target_integers p_15) /\ p_target_integers p_15 = [5; 10] /\
  map key (fst (conclude 20 (fun _ => true) p_15 (snd (solve (real p_15) 50 p_15)))) = [(0%nat, false); (0%nat, true); (1%nat, false); (1%nat, true)].
Proof. exact c43_distinct_example. Qed.

(** The pairs (solution, expanded) saved are the first ones of the full list, and
    all of it if nothing is raised and nobody stops the saving. *)
Theorem C43_saved_in_order_partial : forall p R fuel n concluding, loaded p ->
  let s := snd (solve R fuel p) in
  let all := flat_map (fun i => [(i, false); (i, true)]) (seq 0 (length (s_solutions s))) in
  let (files, r) := conclude n concluding p s in
  let keys := map (fun f => (sv_index f, sv_expanded f)) files in
  (exists missing, keys ++ missing = all) /\
  (forall h', r = Ok h' -> (forall i, concluding i = true) -> keys = all).
Proof. exact c43_files_lemma. Qed.
Print Assumptions C43_saved_in_order_partial.

Example C43_order_witness : loaded p_15 /\ NoDup (p_target_integers p_15) /\ p_target_integers p_15 = [5; 10] /\
  map key (fst (conclude 20 (fun _ => true) p_15 (snd (solve (real p_15) 50 p_15)))) = [(0%nat, false); (0%nat, true); (1%nat, false); (1%nat, true)].
Proof. exact c43_distinct_example. Qed.

(** C44.  Full statement: what is saved of a solution rebuilds every node of its
    network.  False: wrap starts at the first root only, and the solution of "2 6
    to 1 1 3 3" is two unconnected splitters. *)
Theorem C44_whole_network_refuted : ~ (forall p R fuel f, loaded p -> realistic p R -> exists n0, forall n, (n0 <= n)%nat ->
  In f (fst (conclude n (fun _ => true) p (snd (solve R fuel p)))) ->
  exists h' roots m, (do data <- wrap n (sv_heap f) (hd O (sv_roots f)); unwrap data) = Ok (h', roots) /\
    forall r a, In r (sv_roots f) -> linked (sv_heap f) r a -> (m a < length h')%nat /\ same_node m (sv_heap f) a h' (m a)).
Proof. exact c44_refuted_lemma. Qed.
Print Assumptions C44_whole_network_refuted.

(** What is linked to the first root is rebuilt, if no two of its nodes have the
    same id. *)
Theorem C44_round_trip_partial : forall h root fuel, (length h < fuel)%nat ->
  (forall a, linked h root a -> (a < length h)%nat) ->
  (forall a b, linked h root a -> linked h root b -> n_id (get h a) = n_id (get h b) -> a = b) ->
  (forall a, linked h root a -> (0 <= n_value (get h a))%Qc) ->
  exists data h' roots m, wrap fuel h root = Ok data /\ unwrap data = Ok (h', roots) /\ rebuilt h root h' m /\ entrances h root m roots.
Proof. exact c44_partial_lemma. Qed.
Print Assumptions C44_round_trip_partial.

Example C44_witness : (forall a, linked diamond 0 a -> (a < length diamond)%nat) /\
  (forall a b, linked diamond 0 a -> linked diamond 0 b -> n_id (get diamond a) = n_id (get diamond b) -> a = b) /\
  (forall a, linked diamond 0 a -> (0 <= n_value (get diamond a))%Qc) /\ linked diamond 0 3.
Proof. exact c44_example. Qed.

(** C45.  Full statement: exactly the names that a run produces are removed.
    False: "solution1.png.bak" is removed. *)
Theorem C45_only_produced_files_removed_refuted :
  ~ (forall names name, In name (clear_solution_files names) <-> In name names /\ ~ exists i, 0 <= i /\ In name (solution_files i)).
Proof. exact c45_refuted_lemma. Qed.
Print Assumptions C45_only_produced_files_removed_refuted.

(** All produced names are removed, and otherwise only names that start like one. *)
Theorem C45_produced_files_removed_partial : forall names,
  (forall i name, 0 <= i -> In name (solution_files i) -> ~ In name (clear_solution_files names)) /\
  (forall name, In name (clear_solution_files names) <-> In name names /\ ~ looks_produced name).
Proof. exact c45_partial_lemma. Qed.
Print Assumptions C45_produced_files_removed_partial.

Example C45_witness : clear_solution_files [solution_name [48] [] s_png; backup; s_data; solution_name [49; 50] s_expanded_suffix s_data] = [s_data] /\
  In (solution_name [49; 50] s_expanded_suffix s_data) (solution_files 12).
Proof. vm_compute. auto 10. Qed.
