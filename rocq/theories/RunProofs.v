(** Stopped runs of the backend. *)
From Verif Require Import Base BaseLemmas Load LoadSpec Tree TreeSpec Search SearchSpec RealSpec SearchWitness SearchProofs StopProofs
  Expand Conclude ConcludeSpec ConcludeProofs SaveProofs ConcludeWitness Run.
From Coq Require Import QArith Qcanon.
Open Scope Z_scope.

Definition R_any : oracle := {| o_stop := None; o_score := fun _ _ => 0%Q; o_pick := fun _ => None; o_same := fun _ _ _ _ => false |}.
Lemma p_15_loaded : loaded p_15.
Proof. apply loads_loaded. vm_compute. reflexivity. Qed.
(** stopped between the test of the loop and dequeue, after a solution was found *)
Lemma lost_solution fuel n : let R := stop_at (real p_15) (Some 21%nat) in
  length (s_solutions (snd (solve R (22 + fuel) p_15))) = 1%nat /\ run R (22 + fuel) n (fun _ => true) p_15 = ([], Err TypeError).
Proof. vm_compute. auto. Qed.
Lemma stop_keeps_solutions_refuted_lemma : ~ (forall p R k fuel, loaded p -> realistic p R -> (k < fuel)%nat ->
  let R := stop_at R (Some k) in
  s_solutions (snd (solve R fuel p)) <> [] ->
  exists n0, forall n, (n0 <= n)%nat -> fst (run R fuel n (fun _ => true) p) <> []).
Proof.
  intros H. destruct (H p_15 (real p_15) 21%nat 22%nat p_15_loaded (real_ok _) ltac:(lia)) as (n0 & X).
  - intros E. pose proof (proj1 (lost_solution 0 0)) as L. cbv zeta in L. cbn [Nat.add] in L. rewrite E in L. discriminate.
  - apply (X n0 (le_n _)). pose proof (proj2 (lost_solution 0 n0)) as L. cbv zeta in L. cbn [Nat.add] in L. rewrite L. reflexivity.
Qed.
Lemma stopped_run_saves_lemma : forall p R k fuel n t rest concluding, loaded p ->
  let R := stop_at R (Some k) in
  let s := snd (solve R fuel p) in
  fst (solve R fuel p) = Ok tt -> s_solutions s = t :: rest -> (concluding O = true \/ rest = []) ->
  (length (s_heap s) + list_sum (map gsize (p_leaves p)) <= n)%nat ->
  exists h' t' files r,
    run R fuel n concluding p = (MkSaved 0 false (map node_frac (set_levels 0 (t_roots t) h')) (t_roots t) :: files, r) /\
    network h' t' (p_sources p) /\ Permutation (t_source_values t') (p_target_integers p).
Proof.
  intros p R k fuel n t rest concluding L R1 s E ES C N. destruct (c43_first_solution_lemma p R1 fuel t rest concluding n L ES C N) as (h' & t' & files & r & X & Y & _ & _ & Z & _).
  exists h', t', files, r. split; [|auto]. unfold run. rewrite <- X. unfold s. destruct (solve R1 fuel p) as [[[]|e] s1]; [reflexivity|discriminate].
Qed.
