(** Theorems about the order in which the search takes up trees. *)
From Verif Require Import Base Cost Utils Fractions Load Tree Search SearchSpec Score ScoreSpec Real RealSpec SearchWitness QueueProofs.
From Coq Require Import QArith.
Open Scope Z_scope.

(** C68.  Every tree waits with its score, *)
Theorem C68_queue_holds_scores : forall p R fuel t q, loaded p -> realistic p R -> In (t, q) (s_queue (snd (solve R fuel p))) ->
  score_is (p_targets p) (t_source_values t) q.
Proof. exact c68_scores_lemma. Qed.
Print Assumptions C68_queue_holds_scores.

(** among the trees that match a target one that matches more comes later in the
    queue, *)
Theorem C68_more_matches_come_later : forall p R fuel t1 q1 t2 q2 m1 m2, loaded p -> realistic p R ->
  let s := snd (solve R fuel p) in
  In (t1, q1) (s_queue s) -> In (t2, q2) (s_queue s) -> matches (t_source_values t1) (p_targets p) m1 -> matches (t_source_values t2) (p_targets p) m2 ->
  (1 <= m1 < m2)%nat -> (q1 < q2)%Q.
Proof. exact c68_order_lemma. Qed.
Print Assumptions C68_more_matches_come_later.

(** and once a solution is known the tree taken up matches as many targets as any
    other, unless these match one target and it matches none. *)
Theorem C68_best_match_is_taken : forall p R fuel, loaded p -> realistic p R ->
  let s := snd (solve R fuel p) in
  s_queue s <> [] -> 0 < s_solutions_count s -> s_forced_stop s = false -> (forall k, o_stop R = Some k -> (s_reads s < k)%nat) ->
  exists t q s', dequeue R s = (Ok (Some (t, q)), s') /\ Permutation (s_queue s) ((t, q) :: s_queue s') /\
    forall t' q' m m', In (t', q') (s_queue s') -> matches (t_source_values t) (p_targets p) m -> matches (t_source_values t') (p_targets p) m' ->
      (m' <= Nat.max 1 m)%nat.
Proof. exact c68_taken_lemma. Qed.
Print Assumptions C68_best_match_is_taken.

Example C68_witness : loaded p_124 /\ realistic p_124 R_124 /\
  let s := snd (solve R_124 2 p_124) in
  map (fun e => t_source_values (fst e)) (s_queue s) = [[1; 1; 1; 1; 1; 1; 1]; [1; 6]; [1; 1; 1; 4]] /\
  0 < s_solutions_count s /\ s_forced_stop s = false /\ (forall k, o_stop R_124 = Some k -> (s_reads s < k)%nat) /\
  matches [1; 6] (p_targets p_124) 1 /\ matches [1; 1; 1; 4] (p_targets p_124) 2.
Proof. exact c68_example_lemma. Qed.
