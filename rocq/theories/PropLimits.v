(** Property theorems C35-C37, C52: what the search misses. *)
From Verif Require Import Base Cost CostSpec Utils Fractions Load LoadSpec Tree TreeSpec Search SearchSpec RealSpec SearchProofs SearchWitness.
From Coq Require Import QArith Qcanon.
Open Scope Z_scope.

(** C35.  Full statement: if a run that is not stopped ends without a solution, no
    network of the supported operations within the belt limit realises the
    request.  False: "1000 1000 to 4x 500" ends at once without a solution, though
    both sources need only be divided by two. *)
Theorem C35_search_is_complete_refuted : exists p R fuel s h u,
  loaded p /\ realistic p R /\ o_stop R = None /\ solve R fuel p = (Ok tt, s) /\ s_solutions s = [] /\
  leads (fst (initial_tree p)) (snd (initial_tree p)) h u /\
  Permutation (t_source_values u) (p_target_integers p) /\
  (forall a, in_tree h u a -> value h a <= 1200).
Proof. exact division_not_found. Qed.
Print Assumptions C35_search_is_complete_refuted.

(** C52.  Full statement: if a run that is not stopped ends, no network of the
    supported operations within the belt limit delivers the grouped targets with
    a smaller size than the recorded solutions.  False: for "80 to 20 60" the
    search ends with size 3, but extracting 60 costs 1. *)
Theorem C52_best_size_is_minimal_refuted : exists p R fuel s h u,
  loaded p /\ realistic p R /\ o_stop R = None /\ solve R fuel p = (Ok tt, s) /\ s_solutions s <> [] /\
  leads (fst (initial_tree p)) (snd (initial_tree p)) h u /\
  t_source_values u = p_targets p /\ (forall a, in_tree h u a -> value h a <= 1200) /\
  t_size u < s_best_size s.
Proof. exact smaller_not_found. Qed.
Print Assumptions C52_best_size_is_minimal_refuted.

(** C36.  Full statement: belt speeds are compared with real flows (a value of a
    problem divided by its unit_flow_ratio).  False: "400.5 400.5 to 801" ends
    without a solution, though the merge of both sources is a real flow of 801;
    and for "60.5 to 30 30.5" the extraction of a real 30 gets no expansion tag,
    as if 30 were a belt speed. *)
Theorem C36_unit_independent_refuted : 
  (exists p R fuel s h u,
    loaded p /\ realistic p R /\ o_stop R = None /\ solve R fuel p = (Ok tt, s) /\ s_solutions s = [] /\
    leads (fst (initial_tree p)) (snd (initial_tree p)) h u /\
    t_source_values u = p_targets p /\
    (forall a, in_tree h u a -> value h a <= 1200 * p_unit_flow_ratio p)) /\
  (exists p R fuel t a, loaded p /\ realistic p R /\
    let s := snd (solve R fuel p) in
    let h := s_heap s in
    In t (explored p (s_log s)) /\ in_tree h t a /\ n_expands (get h a) = [] /\
    length (children h a) = 2%nat /\ NoDup (map (value h) (children h a)) /\
    (forall b c, In b [60; 120; 270; 480; 780; 1200] -> In c (children h a) -> value h c <> b * p_unit_flow_ratio p)).
Proof. exact c36_unit_independent_refuted_lemma. Qed.
Print Assumptions C36_unit_independent_refuted.

(** What holds: real flows of merges respect the belt limit, and for problems in
    whole units an extraction without a tag extracts a belt speed. *)
Theorem C36_unit_independent_partial : forall p R fuel, loaded p ->
  let s := snd (solve R fuel p) in
  let h := s_heap s in
  (forall e is, In e (s_log s) -> ev_op e = OMerge is ->
     zsum (taken h (ev_from e) (ev_op e)) <= 1200 * p_unit_flow_ratio p) /\
  (p_unit_flow_ratio p = 1 -> forall t a, In t (explored p (s_log s)) -> in_tree h t a ->
     n_expands (get h a) = [] -> length (children h a) = 2%nat -> NoDup (map (value h) (children h a)) ->
     exists c, In c (children h a) /\ exists b, In b [60; 120; 270; 480; 780; 1200] /\ value h c = b * p_unit_flow_ratio p).
Proof. exact c36_unit_independent_partial_lemma. Qed.
Print Assumptions C36_unit_independent_partial.

(** C37.  Full statement: a solution of the best size is dropped only if an
    identical network was recorded.  False: for "7 to 1 2 4" the network 7 -> 1, 6
    and 6 -> 2, 4 is dropped because it has the same shape as 7 -> 3, 4 and
    3 -> 1, 2. *)
Theorem C37_different_solutions_kept_refuted : exists p R fuel s t u,
  loaded p /\ realistic p R /\ o_stop R = None /\ solve R fuel p = (Ok tt, s) /\
  In t (s_solutions s) /\
  In u (explored p (s_log s)) /\ t_source_values u = p_targets p /\ t_size u = s_best_size s /\ ~ In u (s_solutions s) /\
  isomorphic (s_heap s) t u /\
  (forall t', In t' (s_solutions s) -> ~ same_network (s_heap s) t' u).
Proof. exact different_dropped. Qed.
Print Assumptions C37_different_solutions_kept_refuted.

(** What holds: a solution no larger than the best size is recorded, unless
    Tree.__eq__ found it equal to a recorded one. *)
Theorem C37_different_solutions_kept_partial : forall R t s r s',
  solution_found R t s = (Ok r, s') -> s_solutions_count s = Z.of_nat (length (s_solutions s)) ->
  t_size t <= s_best_size s ->
  (In t (s_solutions s') /\ s_best_size s' = t_size t) \/
  (s_best_size s' = t_size t /\ s_solutions s' = s_solutions s /\
   exists k u, In u (s_solutions s) /\ o_same R k (s_heap s) u t = true).
Proof. exact solution_kept. Qed.
Print Assumptions C37_different_solutions_kept_partial.
