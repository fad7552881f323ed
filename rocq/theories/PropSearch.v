(** Property theorems C20-C32, C47, C50, C51: the search.  They hold for every
    problem, every instant of a stop request, every random choice, every score,
    every answer of Tree.__eq__ (the oracle [R]) and after any number of
    iterations of the main loop ([fuel]). *)
From Verif Require Import Base Cost CostSpec Utils Fractions Load LoadSpec Tree TreeSpec Search SearchSpec RealSpec SearchProofs SearchWitness.
From Coq Require Import QArith Qcanon.
Open Scope Z_scope.

(** C20 *)
Theorem C20_steps_conserve_flow : forall p R fuel e, loaded p ->
  let s := snd (solve R fuel p) in
  let h := s_heap s in
  In e (s_log s) ->
  In (ev_from e) (explored p (s_log s)) /\
  sensible h (ev_from e) (ev_op e) /\ priced h (ev_from e) (ev_op e) (ev_cost e) /\
  t_source_values (ev_to e) = ev_sim e /\ StronglySorted Z.le (ev_sim e) /\
  Permutation (t_source_values (ev_to e) ++ taken h (ev_from e) (ev_op e))
              (t_source_values (ev_from e) ++ given h (ev_from e) (ev_op e)) /\
  zsum (given h (ev_from e) (ev_op e)) = zsum (taken h (ev_from e) (ev_op e)) /\
  zsum (t_source_values (ev_to e)) = zsum (t_source_values (ev_from e)).
Proof. exact c20_steps_conserve_flow_lemma. Qed.
Print Assumptions C20_steps_conserve_flow.

(** "9 to 4 5": eleven operations are performed in the first three iterations *)
Example C20_witness : loaded p_9 /\ length (s_log (snd (solve R0 3 p_9))) = 11%nat.
Proof. split; [exact p_9_loaded|vm_compute; reflexivity]. Qed.

(** "100 to 20 80": the first iteration splits the source *)
Example C20_split_witness :
  existsb (fun e => match ev_op e with OSplit _ _ => true | _ => false end) (s_log (snd (solve R0 1 p_100))) = true.
Proof. vm_compute. reflexivity. Qed.

(** C21 *)
Theorem C21_explored_trees_are_networks : forall p R fuel t, loaded p ->
  let s := snd (solve R fuel p) in
  In t (explored p (s_log s)) -> network (s_heap s) t (p_sources p).
Proof. exact c21_explored_trees_are_networks_lemma. Qed.
Print Assumptions C21_explored_trees_are_networks.

(** the queue and the recorded solutions only hold explored trees *)
Theorem C21_known_trees_are_explored : forall p R fuel, loaded p ->
  let s := snd (solve R fuel p) in
  (forall x, In x (s_queue s) -> In (fst x) (explored p (s_log s))) /\
  (forall t, In t (s_solutions s) -> In t (explored p (s_log s))).
Proof. exact c21_known_trees_are_explored_lemma. Qed.
Print Assumptions C21_known_trees_are_explored.

Example C21_witness : let s := snd (solve R0 10 p_9) in
  length (explored p_9 (s_log s)) = 33%nat /\ existsb (fun e => (2 <? length (fl_items (t_past (ev_to e))))%nat) (s_log s) = true.
Proof. vm_compute. auto. Qed.

(** C22, first half: the open ends of a solution are the grouped targets *)
Theorem C22_solutions_deliver_targets : forall p R fuel t, loaded p ->
  let s := snd (solve R fuel p) in
  In t (s_solutions s) ->
  map (value (s_heap s)) (t_sources t) = p_targets p /\ network (s_heap s) t (p_sources p).
Proof. exact c22_solutions_deliver_targets_lemma. Qed.
Print Assumptions C22_solutions_deliver_targets.

Example C22_witness : length (s_solutions (snd (solve R0 10 p_9))) = 1%nat.
Proof. vm_compute. reflexivity. Qed.

(** C23 *)
Theorem C23_solutions_have_best_size : forall p R fuel, loaded p ->
  let s := snd (solve R fuel p) in
  Forall (fun t => t_size t = s_best_size s) (s_solutions s) /\
  s_solutions_count s = Z.of_nat (length (s_solutions s)) /\
  s_forced_stop s = false /\
  s_best_size s <= p_initial_best_size p.
Proof. exact c23_solutions_have_best_size_lemma. Qed.
Print Assumptions C23_solutions_have_best_size.

(** running longer only adds operations and improves best_size *)
Theorem C23_best_size_never_increases : forall p R f g, loaded p -> (f <= g)%nat ->
  let s := snd (solve R f p) in
  let s' := snd (solve R g p) in
  s_best_size s' <= s_best_size s /\
  (exists l, s_log s' = l ++ s_log s) /\
  (forall a, (a < length (s_heap s))%nat -> get (s_heap s') a = get (s_heap s) a).
Proof. exact c23_best_size_never_increases_lemma. Qed.
Print Assumptions C23_best_size_never_increases.

Example C23_witness : s_best_size (snd (solve R0 10 p_66)) < s_best_size (snd (solve R0 0 p_66)).
Proof. vm_compute. reflexivity. Qed.

(** C24 *)
Theorem C24_size_is_total_cost : forall p R fuel t, loaded p ->
  let log := s_log (snd (solve R fuel p)) in
  (In t (explored p log) -> exists configs costs, history p log t configs costs) /\
  (forall configs costs, history p log t configs costs ->
     t_size t = zsum costs /\ Forall (fun c => 1 <= c) costs /\ Z.of_nat (length costs) <= t_size t).
Proof. exact c24_size_is_total_cost_lemma. Qed.
Print Assumptions C24_size_is_total_cost.

(** C27 *)
Theorem C27_no_configuration_revisited : forall p R fuel t configs costs, loaded p ->
  let log := s_log (snd (solve R fuel p)) in
  history p log t configs costs ->
  NoDup configs /\ last configs [] = t_source_values t /\ length configs = S (length costs).
Proof. exact c27_no_configuration_revisited_lemma. Qed.
Print Assumptions C27_no_configuration_revisited.

Example C24_C27_witness : let log := s_log (snd (solve R0 10 p_9)) in
  exists e e', In e log /\ In e' log /\ ev_from e' = ev_to e /\ ev_from e = snd (initial_tree p_9) /\
    history p_9 log (ev_to e') [[9]; t_source_values (ev_to e); t_source_values (ev_to e')] [ev_cost e; ev_cost e'].
Proof. exact history_witness. Qed.

(** C25 *)
Theorem C25_solve_terminates : forall p, loaded p ->
  exists fuel, forall R, o_stop R = None -> exists s, solve R fuel p = (Ok tt, s).
Proof. exact c25_solve_terminates_lemma. Qed.
Print Assumptions C25_solve_terminates.

(** the fuel does not depend on the oracle; with a stop request solve ends as well *)
Theorem C51_solve_raises_only_when_stopped : forall p, loaded p ->
  (forall R fuel e, fst (solve R fuel p) = Err e -> e = OutOfFuel \/ (e = TypeError /\ o_stop R <> None)) /\
  (exists bound, forall R fuel, (bound <= fuel)%nat -> fst (solve R fuel p) <> Err OutOfFuel).
Proof. exact c51_solve_raises_only_when_stopped_lemma. Qed.
Print Assumptions C51_solve_raises_only_when_stopped.

Example C25_witness : fst (solve R0 60 p_9) = Ok tt /\ fst (solve R0 10 p_9) = Err OutOfFuel.
Proof. vm_compute. auto. Qed.
(** the TypeError does happen: stop between the test of the loop and dequeue *)
Example C51_witness :
  fst (solve {| o_stop := Some 2%nat; o_score := fun _ _ => 0%Q; o_pick := fun _ => None; o_same := fun _ _ _ _ => false |} 20 p_9) = Err TypeError.
Proof. vm_compute. reflexivity. Qed.

(** C26: of what purge_queue removes, no continuation is a solution as small as
    the best known one *)
Theorem C26_purge_loses_no_solution : forall R s r s' p x h u,
  purge_queue R s = (r, s') ->
  In x (s_queue s) -> ~ In x (s_queue s') ->
  t_source_values (fst x) <> p_targets p ->
  leads (s_heap s) (fst x) h u -> t_source_values u = p_targets p ->
  s_best_size s < t_size u.
Proof. exact c26_purge_loses_no_solution_lemma. Qed.
Print Assumptions C26_purge_loses_no_solution.

(** in a run no solution waits in the queue, so the hypothesis on x holds *)
Theorem C26_queue_holds_no_solution : forall p R fuel x, loaded p ->
  In x (s_queue (snd (solve R fuel p))) -> t_source_values (fst x) <> p_targets p.
Proof. exact c26_queue_holds_no_solution_lemma. Qed.
Print Assumptions C26_queue_holds_no_solution.

(** and, unless stopped, it removes exactly the entries that are too large *)
Theorem C26_purge_is_exact : forall R s, o_stop R = None -> s_forced_stop s = false ->
  exists s', purge_queue R s = (Ok tt, s') /\
    s_queue s' = filter (fun x => t_size (fst x) <? s_best_size s) (s_queue s).
Proof. exact c26_purge_is_exact_lemma. Qed.
Print Assumptions C26_purge_is_exact.

Example C26_witness : let s := with_solutions [] 0 2 (snd (solve R0 1 p_9)) in
  (length (s_queue (snd (purge_queue R0 s))) < length (s_queue s))%nat /\ (0 < length (s_queue (snd (purge_queue R0 s))))%nat.
Proof. vm_compute. split; repeat constructor. Qed.

(** C28 *)
Theorem C28_belts_within_limit : forall p R fuel, loaded p ->
  let s := snd (solve R fuel p) in
  (Forall (fun v => v <= 1200) (p_sources p) ->
   forall t a, In t (explored p (s_log s)) -> in_tree (s_heap s) t a -> value (s_heap s) a <= 1200) /\
  (forall e is, In e (s_log s) -> ev_op e = OMerge is -> zsum (taken (s_heap s) (ev_from e) (ev_op e)) <= 1200).
Proof. exact c28_belts_within_limit_lemma. Qed.
Print Assumptions C28_belts_within_limit.

Example C28_witness : Forall (fun v => v <= 1200) (p_sources p_9) /\
  existsb (fun e => match ev_op e with OMerge _ => true | _ => false end) (s_log (snd (solve R0 10 p_9))) = true.
Proof. split; [vm_compute; repeat constructor; discriminate|vm_compute; reflexivity]. Qed.

(** C29 *)
Theorem C29_needed_values_are_kept : forall p R fuel e v, loaded p ->
  let s := snd (solve R fuel p) in
  In e (s_log s) -> In v (taken (s_heap s) (ev_from e) (ev_op e)) ->
  (occurrences v (p_targets p) < occurrences v (t_source_values (ev_from e)))%nat.
Proof. exact c29_needed_values_are_kept_lemma. Qed.
Print Assumptions C29_needed_values_are_kept.

(** "4 6 to 2 8": in [2; 2; 6] only one 2 can be used *)
Example C29_witness : let s := snd (solve R0 60 p_46) in
  existsb (fun e => Nat.eqb (count_occ Z.eq_dec (t_source_values (ev_from e)) 2) 2) (s_log s) = true.
Proof. vm_compute. reflexivity. Qed.

(** C30.  Full statement: no operation produces a value that was carried by an
    ancestor of the node it is applied to.  False: for "9 to 4 5" two 3 are
    merged into a 6, which is then divided into two 3 again. *)
Theorem C30_ancestor_values_avoided_refuted : exists p R fuel e a b v, loaded p /\ realistic p R /\
  let s := snd (solve R fuel p) in
  let h := s_heap s in
  In e (s_log s) /\ In a (op_nodes (ev_from e) (ev_op e)) /\ below h b a /\ b <> a /\
  In v (given h (ev_from e) (ev_op e)) /\ v = value h b.
Proof. exact ancestor_witness. Qed.
Print Assumptions C30_ancestor_values_avoided_refuted.

(** What holds: the values produced differ from the value of the node itself and
    from that of at least one of the roots above it. *)
Theorem C30_ancestor_values_avoided_partial : forall p R fuel e a v, loaded p ->
  let s := snd (solve R fuel p) in
  let h := s_heap s in
  In e (s_log s) -> In a (op_nodes (ev_from e) (ev_op e)) -> In v (given h (ev_from e) (ev_op e)) ->
  v <> value h a /\ exists r, In r (t_roots (ev_from e)) /\ below h r a /\ v <> value h r.
Proof. exact c30_ancestor_values_avoided_partial_lemma. Qed.
Print Assumptions C30_ancestor_values_avoided_partial.

(** C31 *)
Theorem C31_deepcopy_is_faithful : forall p R fuel t, loaded p ->
  let s := snd (solve R fuel p) in
  In t (explored p (s_log s)) ->
  exists h' t' C, tree_deepcopy (s_heap s) t = Ok (h', t') /\ faithful_copy (s_heap s) t h' t' C.
Proof. exact c31_deepcopy_is_faithful_lemma. Qed.
Print Assumptions C31_deepcopy_is_faithful.

(** the trees of a run share no node: changing one leaves the others alone *)
Theorem C31_trees_share_no_node : forall p R fuel i j t u, loaded p ->
  let s := snd (solve R fuel p) in
  nth_error (explored p (s_log s)) i = Some t -> nth_error (explored p (s_log s)) j = Some u -> i <> j ->
  apart (s_heap s) t u.
Proof. exact run_apart. Qed.
Print Assumptions C31_trees_share_no_node.

Example C31_witness : let s := snd (solve R0 10 p_9) in
  match nth_error (s_log s) 3 with
  | Some e => match tree_deepcopy (s_heap s) (ev_to e) with
              | Ok (h', t') => (length (s_heap s) + 4 <= length h')%nat /\ t_roots t' <> t_roots (ev_to e)
              | Err _ => False
              end
  | None => False
  end.
Proof. exact copy_witness. Qed.

(** C32 *)
Theorem C32_levels_increase : forall p R fuel t, loaded p ->
  let s := snd (solve R fuel p) in
  In t (explored p (s_log s)) -> levelled (s_heap s) t.
Proof. exact c32_levels_increase_lemma. Qed.
Print Assumptions C32_levels_increase.

(** C50 *)
Theorem C50_tags_describe_construction : forall p R fuel t a, loaded p ->
  let s := snd (solve R fuel p) in
  In t (explored p (s_log s)) -> in_tree (s_heap s) t a -> tagged (s_heap s) a.
Proof. exact c50_tags_describe_construction_lemma. Qed.
Print Assumptions C50_tags_describe_construction.

Example C50_witness : let s := snd (solve R0 1 p_9) in
  existsb (fun n => match n_expands n with [TDivide 9] => true | _ => false end) (s_heap s) = true /\
  existsb (fun n => match n_expands n with [TExtract 4] => true | _ => false end) (s_heap s) = true.
Proof. vm_compute. auto. Qed.

(** C47 *)
Theorem C47_queue_is_sorted : forall p R fuel, loaded p ->
  StronglySorted queue_order (s_queue (snd (solve R fuel p))).
Proof. exact c47_queue_is_sorted_lemma. Qed.
Print Assumptions C47_queue_is_sorted.

(** dequeue while solving: takes one element out; once a solution is known, the
    greatest *)
Theorem C47_dequeue_is_total : forall R s, s_queue s <> [] ->
  s_forced_stop s = false -> (forall k, o_stop R = Some k -> (s_reads s < k)%nat) ->
  StronglySorted queue_order (s_queue s) ->
  exists x s', dequeue R s = (Ok (Some x), s') /\ Permutation (s_queue s) (x :: s_queue s') /\
    StronglySorted queue_order (s_queue s') /\
    (0 < s_solutions_count s -> Forall (fun y => queue_order y x) (s_queue s')).
Proof. exact dequeue_spec. Qed.
Print Assumptions C47_dequeue_is_total.

Example C47_witness : let s := snd (solve R0 10 p_9) in
  (2 < length (s_queue s))%nat /\ exists x s', dequeue R0 s = (Ok (Some x), s') /\ t_size (fst x) = 4.
Proof. exact queue_witness. Qed.

(** C67.  For an extraction that was applied, and for one that a node of a tree
    still has to be expanded by. *)
Theorem C67_extraction_takes_smaller_part : forall p R fuel, loaded p ->
  let s := snd (solve R fuel p) in
  (forall e i c, In e (s_log s) -> ev_op e = OExtract i c -> 2 * c < zsum (taken (s_heap s) (ev_from e) (ev_op e))) /\
  (forall t a c, In t (explored p (s_log s)) -> in_tree (s_heap s) t a -> In (TExtract c) (n_expands (get (s_heap s) a)) -> 2 * c < value (s_heap s) a).
Proof. exact c67_lemma. Qed.
Print Assumptions C67_extraction_takes_smaller_part.

Example C67_witness : let s := snd (solve R0 10 p_9) in loaded p_9 /\
  existsb (fun e => match ev_op e with OExtract _ c => c =? 4 | _ => false end) (s_log s) = true /\
  existsb (fun n => match n_expands n with [TExtract 4] => n_value n =? 9 | _ => false end) (s_heap s) = true.
Proof. exact c67_example_lemma. Qed.
