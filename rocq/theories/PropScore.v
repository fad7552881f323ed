(** Theorems about the score of a tree. *)
From Verif Require Import Base Cost Utils Fractions Load Score ScoreSpec ScoreProofs.
From Coq Require Import QArith.
Open Scope Z_scope.

(** C46, first half: whenever stop() arrives, scoring positive sources does not
    raise, and unless it is stopped at its first line the score is at least the
    square of the number of matched targets. *)
Theorem C46_scoring_never_raises : forall solving T S st, Forall (fun v => 0 < v) S -> scores_nonneg (sc_cache st) ->
  exists q st', compute solving T S st = Ok (q, st') /\ scores_nonneg (sc_cache st') /\
    (solving (sc_reads st) = true -> exists m, matches S T m /\ (inject_Z (Z.of_nat m * Z.of_nat m) <= q)%Q).
Proof. exact c46_never_raises_lemma. Qed.
Print Assumptions C46_scoring_never_raises.

Example C46_scoring_never_raises_witness : Forall (fun v => 0 < v) [5; 4; 4] /\ scores_nonneg [(13, (1 # 3)%Q)] /\ matches [5; 4; 4] [4; 9] 1 /\
  match compute (fun k => (k <? 7)%nat) [4; 9] [5; 4; 4] (MkScorer 0 [(13, (1 # 3)%Q)]) with Ok (q, _) => Qeq_bool q (17 # 12) | Err _ => false end = true.
Proof. exact c46_never_raises_example. Qed.

(** C46, second half: the search's score, with whatever right values in the two
    caches, is the one of the specification and keeps both caches right. *)
Theorem C46_caching_changes_nothing : forall T S c st, Forall (fun v => 0 < v) S -> scores_right T (sc_cache st) -> totals_right T c ->
  exists q c' st', cached_compute (fun _ => true) T S c st = Ok ((q, c'), st') /\ score_is T S q /\ scores_right T (sc_cache st') /\ totals_right T c'.
Proof. exact c46_cached_lemma. Qed.
Print Assumptions C46_caching_changes_nothing.

Example C46_caching_witness : Forall (fun v => 0 < v) [5; 4; 4] /\
  match cached_compute (fun _ => true) [4; 9] [13] [] st0 with
  | Ok ((q, c), st) => match cached_compute (fun _ => true) [4; 9] [5; 4; 4] c st with
    | Ok ((q', c'), st') => Qeq_bool q (1 # 3) && Qeq_bool q' (7 # 4) && (length c' =? 2)%nat && (length (sc_cache st') =? 4)%nat
    | Err _ => false end
  | Err _ => false end = true.
Proof. exact c46_cached_example. Qed.

(** C46: the specification gives one score. *)
Theorem C46_score_unique : forall T S q q', score_is T S q -> score_is T S q' -> (q == q')%Q.
Proof. exact c46_unique_lemma. Qed.
Print Assumptions C46_score_unique.

Example C46_score_unique_witness : exists q1 q2, NoDup [4; 9; 20] /\ score_is [4; 9; 20] [4; 29] q1 /\ score_is [4; 9; 20] [4; 9; 10; 10] q2 /\ matches [4; 29] [4; 9; 20] 1 /\ matches [4; 9; 10; 10] [4; 9; 20] 2.
Proof. exact c54_example. Qed.

(** C54.  Sources matching more targets always score higher.  False even for
    distinct targets: for 60 and 70 the lone source 130 scores 2 but 35, 35, 60,
    which has one target, 4/3. *)
Theorem C54_more_matches_score_higher_refuted : ~ (forall T S1 S2 q1 q2 m1 m2, NoDup T -> Forall (fun v => 0 < v) S1 -> Forall (fun v => 0 < v) S2 ->
  score_is T S1 q1 -> score_is T S2 q2 -> matches S1 T m1 -> matches S2 T m2 -> (m1 < m2)%nat -> (q1 < q2)%Q).
Proof. exact c54_refuted_lemma. Qed.
Print Assumptions C54_more_matches_score_higher_refuted.

(** C54 is false for repeated targets even when both match some: for five times 1,
    a source of 1 and one of 2 score 6, two sources of 1 only 4. *)
Theorem C54_repeated_targets_refuted : ~ (forall T S1 S2 q1 q2 m1 m2, Forall (fun v => 0 < v) S1 -> Forall (fun v => 0 < v) S2 ->
  score_is T S1 q1 -> score_is T S2 q2 -> matches S1 T m1 -> matches S2 T m2 -> (1 <= m1 < m2)%nat -> (q1 < q2)%Q).
Proof. exact c54_repeated_refuted_lemma. Qed.
Print Assumptions C54_repeated_targets_refuted.

(** C54 holds for distinct targets, which are what load hands to the search (C10),
    once one target is matched.  Missing: no match against some, and repeated
    targets; both are refuted above. *)
Theorem C54_more_matches_score_higher_partial : forall T S1 S2 q1 q2 m1 m2, NoDup T -> Forall (fun v => 0 < v) S1 -> Forall (fun v => 0 < v) S2 ->
  score_is T S1 q1 -> score_is T S2 q2 -> matches S1 T m1 -> matches S2 T m2 -> (1 <= m1 < m2)%nat -> (q1 < q2)%Q.
Proof. exact c54_partial_lemma. Qed.
Print Assumptions C54_more_matches_score_higher_partial.

Example C54_more_matches_witness : exists q1 q2, NoDup [4; 9; 20] /\ score_is [4; 9; 20] [4; 29] q1 /\ score_is [4; 9; 20] [4; 9; 10; 10] q2 /\ matches [4; 29] [4; 9; 20] 1 /\ matches [4; 9; 10; 10] [4; 9; 20] 2.
Proof. exact c54_example. Qed.
