(** Proofs about the scores in the queue of the search. *)
From Verif Require Import Base BaseLemmas Cost CostSpec CostProofs Utils UtilsSpec UtilsProofs Fractions Load LoadSpec LoadProofs Tree TreeSpec
  Search SearchSpec HeapLemmas CopyProofs TreeInv TreeGrow TreeOps SearchGen SearchInit SearchInv SearchProofs RunRule Score ScoreSpec ScoreProofs
  TreeEq Real RealSpec RealProofs SearchWitness SavedProofs.
From Coq Require Import QArith Qcanon.
Open Scope Z_scope.

Section Scored.
Variable p : problem.
Variable R : oracle.
Definition scored (s : state) : Prop := forall e, In e (s_queue s) -> exists k, snd e = o_score R k (t_source_values (fst e)).

Lemma scored_sub q s : (forall e, In e q -> In e (s_queue s)) -> scored s -> scored (with_queue q s).
Proof. intros S H e I. apply H, S, I. Qed.

Lemma purge_scored : forall i s, scored s -> wp (purge_loop R i) (fun _ s' => scored s') (fun _ s' => scored s') s.
Proof.
  induction i as [|i IH]; intros s H; [exact H|]. cbn [purge_loop]. apply wp_bind, wp_solving. intros b. destruct (negb b); [apply wp_ret; exact H|].
  apply wp_bind, wp_gets, wp_bind, wp_gets. destruct (nth_error _ i) as [[t q]|]; [|exact H]. apply wp_bind. destruct (t_size t >=? _).
  - apply wp_modify. apply IH. intros e I. apply H. cbn [with_queue s_queue with_counters] in *. apply in_app_iff in I.
    destruct I as [I|I]; [rewrite <- (firstn_skipn i); apply in_or_app; left; exact I|rewrite <- (firstn_skipn (S i)); apply in_or_app; right; exact I].
  - apply wp_ret. apply IH. exact H.
Qed.

Lemma enqueue_scored t s : scored s -> wp (enqueue R p t) (fun _ s' => scored s') (fun _ s' => scored s') s.
Proof.
  intros H. unfold enqueue. apply wp_bind, wp_solving. intros b. destruct (negb b); [apply wp_ret; exact H|]. apply wp_bind, wp_gets.
  destruct (is_solution _ _ _).
  - apply wp_bind. unfold solution_found. apply wp_bind, wp_gets, wp_bind, wp_gets, wp_bind, wp_gets. destruct (_ || _).
    + apply wp_bind, wp_modify, wp_ret. unfold purge_queue. apply wp_bind, wp_gets, purge_scored. exact H.
    + destruct (t_size t =? _).
      * apply wp_bind. unfold wp at 1. destruct (any_same_ok R t (s_solutions (with_counters (S (s_reads s)) (s_scores s) (s_picks s) (s_sames s) s)) (with_counters (S (s_reads s)) (s_scores s) (s_picks s) (s_sames s) s)) as (known & k & ->).
        destruct known; [apply wp_ret, wp_ret|apply wp_bind, wp_modify, wp_ret, wp_ret]; exact H.
      * apply wp_bind, wp_modify, wp_ret, wp_ret. exact H.
  - apply wp_bind, wp_gets, wp_bind, wp_modify, wp_modify. intros e I. cbn [with_queue s_queue with_counters] in I.
    apply (Permutation_in e (insort_perm entry_le _ _)) in I. destruct I as [<-|I]; [eexists; reflexivity|apply H, I].
Qed.
End Scored.

Lemma queue_scored p R fuel : loaded p -> scored R (snd (solve R fuel p)).
Proof.
  intros L. apply (run_rule p L R (scored R)).
  - intros a b c d s H. exact H.
  - apply scored_sub.
  - pose proof (enqueue_scored p R (snd (initial_tree p)) (initial_state p)) as E. unfold wp in E.
    destruct (enqueue R p (snd (initial_tree p)) (initial_state p)) as [[u|e] s']; apply E; intros e' [].
  - intros t N sim o cost s _ _ _ _ _ _ H. assert (W : wp (try_body R p t sim o cost) (fun _ s' => scored R s') (fun _ s' => scored R s') s).
    { unfold try_body. apply wp_bind, wp_solving. intros b. destruct (negb b); [apply wp_ret; exact H|]. apply wp_bind, wp_gets, wp_bind. unfold wp at 1, lift.
      destruct (apply_op _ t o cost) as [[h' new]|e]; [|exact H]. apply wp_bind, wp_modify, wp_bind, wp_modify, wp_bind.
      set (s2 := with_log _ _). pose proof (enqueue_scored p R new s2 H) as E. unfold wp in *. destruct (enqueue R p new s2) as [[u|e] s']; exact E. }
    unfold wp in W. destruct (try_body R p t sim o cost s) as [[u|e] s']; exact W.
Qed.

Lemma explored_positive p R fuel t : loaded p -> In t (explored p (s_log (snd (solve R fuel p)))) -> Forall (fun v => 0 < v) (t_source_values t).
Proof.
  intros L I. pose proof (iv_good _ _ _ _ _ _ _ _ (proj1 (run_inv p R fuel L))) as GD. rewrite Forall_forall in GD. destruct (GD t I) as [N G].
  pose proof (gd_wf _ _ _ _ G) as W. rewrite (wf_values _ _ _ W). apply Forall_forall. intros v Hv. apply in_map_iff in Hv. destruct Hv as (a & <- & Ha).
  apply (wf_pos _ _ _ W). apply (wf_open _ _ _ W) in Ha. apply Ha.
Qed.

Lemma c68_scores_lemma : forall p R fuel t q, loaded p -> realistic p R -> In (t, q) (s_queue (snd (solve R fuel p))) ->
  score_is (p_targets p) (t_source_values t) q.
Proof.
  intros p R fuel t q L [_ RS] I. destruct (queue_scored p R fuel L _ I) as [k E]. cbn [fst snd] in E. rewrite E. apply RS. apply (explored_positive p R fuel t L).
  pose proof (iv_queue _ _ _ _ _ _ _ _ (proj1 (run_inv p R fuel L))) as QU. rewrite Forall_forall in QU. apply (QU _ I).
Qed.

Lemma distinct_targets p : loaded p -> NoDup (p_targets p).
Proof.
  intros L. pose proof (lf_targets p (loaded_ok p L)) as S. induction S as [|x l S IH F]; [constructor|]. constructor; [|exact IH].
  intros I. rewrite Forall_forall in F. specialize (F x I). lia.
Qed.

Lemma c68_order_lemma : forall p R fuel t1 q1 t2 q2 m1 m2, loaded p -> realistic p R ->
  let s := snd (solve R fuel p) in
  In (t1, q1) (s_queue s) -> In (t2, q2) (s_queue s) -> matches (t_source_values t1) (p_targets p) m1 -> matches (t_source_values t2) (p_targets p) m2 ->
  (1 <= m1 < m2)%nat -> (q1 < q2)%Q.
Proof.
  cbv zeta. intros p R fuel t1 q1 t2 q2 m1 m2 L RR I1 I2 M1 M2 Lt.
  assert (EX : forall t q, In (t, q) (s_queue (snd (solve R fuel p))) -> Forall (fun v => 0 < v) (t_source_values t)).
  { intros t q I. apply (explored_positive p R fuel t L). pose proof (iv_queue _ _ _ _ _ _ _ _ (proj1 (run_inv p R fuel L))) as QU. rewrite Forall_forall in QU. apply (QU _ I). }
  apply (c54_partial_lemma (p_targets p) (t_source_values t1) (t_source_values t2) q1 q2 m1 m2); auto.
  - apply distinct_targets, L.
  - eapply EX, I1.
  - eapply EX, I2.
  - eapply c68_scores_lemma; eassumption.
  - eapply c68_scores_lemma; eassumption.
Qed.

Lemma c68_taken_lemma : forall p R fuel, loaded p -> realistic p R ->
  let s := snd (solve R fuel p) in
  s_queue s <> [] -> 0 < s_solutions_count s -> s_forced_stop s = false -> (forall k, o_stop R = Some k -> (s_reads s < k)%nat) ->
  exists t q s', dequeue R s = (Ok (Some (t, q)), s') /\ Permutation (s_queue s) ((t, q) :: s_queue s') /\
    forall t' q' m m', In (t', q') (s_queue s') -> matches (t_source_values t) (p_targets p) m -> matches (t_source_values t') (p_targets p) m' ->
      (m' <= Nat.max 1 m)%nat.
Proof.
  cbv zeta. intros p R fuel L RR NE CT NF NS. destruct (dequeue_spec R _ NE NF NS (c47_queue_is_sorted_lemma p R fuel L)) as ([t q] & s' & E & PE & _ & Top).
  exists t, q, s'. split; [exact E|]. split; [exact PE|]. intros t' q' m m' I M M'. specialize (Top CT). rewrite Forall_forall in Top. specialize (Top _ I).
  assert (Le : (q' <= q)%Q) by (destruct Top as [Lt|[Eq _]]; cbn [snd] in *; [apply Qlt_le_weak, Lt|rewrite Eq; apply Qle_refl]).
  assert (I0 : In (t, q) (s_queue (snd (solve R fuel p)))) by (apply (Permutation_in _ (Permutation_sym PE)); left; reflexivity).
  assert (I1 : In (t', q') (s_queue (snd (solve R fuel p)))) by (apply (Permutation_in _ (Permutation_sym PE)); right; exact I).
  destruct (le_lt_dec m' (Nat.max 1 m)) as [Ok|Lt]; [exact Ok|]. exfalso. apply (Qlt_not_le q q'); [|exact Le].
  destruct m as [|m]; [|apply (c68_order_lemma p R fuel t q t' q' (S m) m' L RR I0 I1 M M'); lia].
  assert (EX : forall t q, In (t, q) (s_queue (snd (solve R fuel p))) -> Forall (fun v => 0 < v) (t_source_values t)).
  { intros u x J. apply (explored_positive p R fuel u L). pose proof (iv_queue _ _ _ _ _ _ _ _ (proj1 (run_inv p R fuel L))) as QU. rewrite Forall_forall in QU. apply (QU _ J). }
  pose proof (score_bounds _ _ _ _ (distinct_targets p L) (EX _ _ I0) (c68_scores_lemma p R fuel t q L RR I0) M) as [_ U].
  pose proof (score_bounds _ _ _ _ (distinct_targets p L) (EX _ _ I1) (c68_scores_lemma p R fuel t' q' L RR I1) M') as [B _].
  eapply Qle_lt_trans; [exact U|]. eapply Qlt_le_trans; [|exact B]. change 2%Q with (inject_Z 2). rewrite <- inject_Z_plus, <- Zlt_Qlt. nia.
Qed.

(** ** 7 to 1 2 4, with the program's own scores: a solution is known and the
    queue holds trees with one and with two targets *)
Definition R_124 : oracle := real_oracle p_124 None (fun _ => None).
Lemma c68_example_lemma : loaded p_124 /\ realistic p_124 R_124 /\
  let s := snd (solve R_124 2 p_124) in
  map (fun e => t_source_values (fst e)) (s_queue s) = [[1; 1; 1; 1; 1; 1; 1]; [1; 6]; [1; 1; 1; 4]] /\
  0 < s_solutions_count s /\ s_forced_stop s = false /\ (forall k, o_stop R_124 = Some k -> (s_reads s < k)%nat) /\
  matches [1; 6] (p_targets p_124) 1 /\ matches [1; 1; 1; 4] (p_targets p_124) 2.
Proof.
  split; [exact p_124_loaded|]. split; [apply real_realistic|]. cbv zeta. split; [vm_compute; reflexivity|]. split; [vm_compute; reflexivity|]. split; [vm_compute; reflexivity|].
  split; [discriminate|]. assert (E : p_targets p_124 = [1; 2; 4]) by (vm_compute; reflexivity). rewrite E. split.
  - exists [6], [2; 4], [1]. split; [apply perm_swap|]. split; [apply (Permutation_app_comm [1] [2; 4])|]. split; [cbn; intros v; lia|reflexivity].
  - exists [1; 1], [2], [1; 4]. split; [reflexivity|]. split; [apply perm_swap|]. split; [cbn; intros v; lia|reflexivity].
Qed.
