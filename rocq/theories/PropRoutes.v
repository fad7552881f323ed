(** Property theorems C35, C52, C63: what a search that runs to its end has found. *)
From Verif Require Import Base Cost Utils Load Tree TreeSpec Search SearchSpec SearchWitness RouteSpec RouteProofs RouteWitness RunProofs.
Open Scope Z_scope.

(** C35.  The full statement and its refutation are in PropLimits.v.  What holds: a
    run that is not stopped and ends without a solution has left no route to the
    targets within the initial bound that respects the rules of the search.
    Missing: networks that break these rules. *)
Theorem C35_routes_found_partial : forall p R fuel last before size, loaded p -> o_stop R = None -> fst (solve R fuel p) = Ok tt ->
  let s := snd (solve R fuel p) in
  route p (p_targets p) last before size -> size <= p_initial_best_size p -> s_solutions s <> [].
Proof. exact routes_found_lemma. Qed.
Print Assumptions C35_routes_found_partial.

(** C52.  The full statement and its refutation are in PropLimits.v.  What holds: no
    route that respects the rules of the search is shorter than the recorded
    solutions, unless it passes through flows that some solution has passed
    through.  Missing: that exception, and networks that break these rules. *)
Theorem C52_routes_not_better_partial : forall p R fuel last before size, loaded p -> o_stop R = None -> fst (solve R fuel p) = Ok tt ->
  let s := snd (solve R fuel p) in
  route p (p_targets p) last before size ->
  (exists u, In u (s_solutions s) /\ t_size u <= size) \/ p_initial_best_size p < size \/
  exists c u, In c before /\ c <> p_sources p /\
    In u (explored p (s_log s)) /\ t_source_values u = p_targets p /\ In c (fl_items (t_past u)).
Proof. exact routes_not_better_lemma. Qed.
Print Assumptions C52_routes_not_better_partial.

Example C35_C52_witness : loaded p_124 /\ o_stop R_any = None /\ fst (solve R_any 60 p_124) = Ok tt /\
  route p_124 (p_targets p_124) [3] [[3; 4]; [7]] 6 /\ p_initial_best_size p_124 = 6.
Proof.
  split; [exact p_124_loaded|]. split; [reflexivity|]. split; [exact p_124_ends|]. split; [exact p_124_route|].
  exact (proj2 (proj2 (proj2 p_124_values))).
Qed.

(** C63 *)
Theorem C63_no_solution_forgotten : forall p R fuel t, loaded p -> o_stop R = None -> fst (solve R fuel p) = Ok tt ->
  let s := snd (solve R fuel p) in
  In t (explored p (s_log s)) -> t_source_values t = p_targets p ->
  exists u, In u (s_solutions s) /\ t_size u <= t_size t.
Proof. exact nothing_forgotten_lemma. Qed.
Print Assumptions C63_no_solution_forgotten.

Example C63_witness : existsb (fun t => tuple_eqb (t_source_values t) (p_targets p_124)) (explored p_124 (s_log (snd (solve R_any 60 p_124)))) = true.
Proof. vm_compute. reflexivity. Qed.
