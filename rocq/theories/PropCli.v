(** Properties of stopping and of the command line: C33, C34, C55, C56, C59, C60. *)
From Verif Require Import Base Load LoadSpec Tree TreeSpec Search SearchSpec RealSpec StopProofs Expand Conclude ConcludeSpec ConcludeWitness Run RunProofs Cli CliSpec CliProofs.
From Coq Require Import QArith Qcanon.
Open Scope Z_scope.

(** C33.  Full statement, first half: a stop handled while the backend is running
    is seen by the search or by the saving.  False: before self.solving is set,
    and between the search and the saving, it is lost. *)
Theorem C33_stop_never_lost_refuted : ~ (forall c c1 ls c2 ls' c3, reachable c -> running (fl c) = true -> step c Signal c1 ->
  steps c1 ls c2 -> same_run ls -> handlers c2 = [] -> steps c2 ls' c3 -> same_run ls' -> ~ In (SolveRead true) ls' /\ ~ In (ConcludeRead true) ls').
Proof. exact stop_never_lost_refuted_lemma. Qed.
Print Assumptions C33_stop_never_lost_refuted.
(** the same for the instant before the search, where the search then runs to its end *)
Theorem C33_stop_before_search_lost_refuted : exists c c1 ls c2 ls' c3, reachable c /\ running (fl c) = true /\ step c Signal c1 /\
  steps c1 ls c2 /\ same_run ls /\ handlers c2 = [] /\ steps c2 ls' c3 /\ same_run ls' /\ In (SolveRead true) ls'.
Proof. exact lost_before_solving. Qed.
Print Assumptions C33_stop_before_search_lost_refuted.

(** Second half: the solutions found before the stop are saved.  False: between the
    test of the main loop and dequeue the stop makes solve raise TypeError, and
    nothing is saved. *)
Theorem C33_stop_keeps_solutions_refuted : ~ (forall p R k fuel, loaded p -> realistic p R -> (k < fuel)%nat ->
  let R := stop_at R (Some k) in
  s_solutions (snd (solve R fuel p)) <> [] ->
  exists n0, forall n, (n0 <= n)%nat -> fst (run R fuel n (fun _ => true) p) <> []).
Proof. exact stop_keeps_solutions_refuted_lemma. Qed.
Print Assumptions C33_stop_keeps_solutions_refuted.

(** What holds: a stop that arrives during the search is seen by every read of
    self.solving after its handler; *)
Theorem C33_stop_during_search_partial : forall c c1 ls c2 ls' c3, reachable c -> back c = BSolve -> step c Signal c1 ->
  steps c1 ls c2 -> same_run ls -> handlers c2 = [] -> steps c2 ls' c3 -> same_run ls' -> ~ In (SolveRead true) ls'.
Proof. exact stop_solving_lemma. Qed.
Print Assumptions C33_stop_during_search_partial.
(** likewise during the saving; *)
Theorem C33_stop_during_saving_partial : forall c c1 ls c2 ls' c3, reachable c -> back c = BConclude -> step c Signal c1 ->
  steps c1 ls c2 -> same_run ls -> handlers c2 = [] -> steps c2 ls' c3 -> same_run ls' -> ~ In (ConcludeRead true) ls'.
Proof. exact stop_concluding_lemma. Qed.
Print Assumptions C33_stop_during_saving_partial.
(** reads that saw False are never followed by reads that see True, so a number of
    reads describes a stop, as in Search.v; *)
Theorem C33_reads_are_monotone_partial : forall c ls1 ls2 c', reachable c ->
  (steps c (ls1 ++ SolveRead false :: ls2) c' -> same_run ls2 -> ~ In (SolveRead true) ls2) /\
  (steps c (ls1 ++ ConcludeRead false :: ls2) c' -> same_run ls2 -> ~ In (ConcludeRead true) ls2).
Proof. exact (fun c ls1 ls2 c' H => conj (solving_once_lemma c ls1 ls2 c' H) (concluding_once_lemma c ls1 ls2 c' H)). Qed.
Print Assumptions C33_reads_are_monotone_partial.
(** the search does end, within one operation for each read that saw True, and
    raises only when dequeue is the first to see the stop; *)
Theorem C33_stopped_search_ends_partial : forall p R k fuel, loaded p -> o_stop R = Some k -> (k < fuel)%nat ->
  match solve R fuel p with
  | (Ok _, _) => True
  | (Err e, s) => e = TypeError /\ s_reads s = S k
  end.
Proof. exact stopped_search_ends_lemma. Qed.
Print Assumptions C33_stopped_search_ends_partial.
Theorem C33_stop_bounds_work_partial : forall p R k fuel, o_stop R = Some k -> (length (s_log (snd (solve R fuel p))) <= k)%nat.
Proof. exact stop_bounds_work_lemma. Qed.
Print Assumptions C33_stop_bounds_work_partial.
(** and when it does not raise, the first solution found is saved. *)
Theorem C33_stopped_run_saves_partial : forall p R k fuel n t rest concluding, loaded p ->
  let R := stop_at R (Some k) in
  let s := snd (solve R fuel p) in
  fst (solve R fuel p) = Ok tt -> s_solutions s = t :: rest -> (concluding O = true \/ rest = []) ->
  (length (s_heap s) + list_sum (map gsize (p_leaves p)) <= n)%nat ->
  exists h' t' files r,
    run R fuel n concluding p = (MkSaved 0 false (map node_frac (set_levels 0 (t_roots t) h')) (t_roots t) :: files, r) /\
    network h' t' (p_sources p) /\ Permutation (t_source_values t') (p_target_integers p).
Proof. exact stopped_run_saves_lemma. Qed.
Print Assumptions C33_stopped_run_saves_partial.

Example C33_witness : reachable just_started /\ reachable (MkConf (set_solving true fl1) MLoop [] BSolve) /\
  (let R := stop_at R_any (Some 20%nat) in
   fst (solve R 50 p_15) = Ok tt /\ length (s_solutions (snd (solve R 50 p_15))) = 1%nat /\ length (s_log (snd (solve R 50 p_15))) = 2%nat).
Proof.
  split; [exact just_started_reachable|]. split; [|vm_compute; auto]. destruct just_started_reachable as [ls S].
  exists (ls ++ [Quiet]). eapply steps_app; [exact S|]. apply steps_one, step_work, work_start.
Qed.

(** C34 *)
Theorem C34_not_running_when_thread_ends : forall c l c', reachable c -> step c l c' -> back c <> BEnd -> back c' = BEnd -> running (fl c') = false.
Proof. exact thread_end_lemma. Qed.
Print Assumptions C34_not_running_when_thread_ends.
(** however many signals arrive, main returns *)
Theorem C34_main_returns : forall c n, reachable c -> back c = BEnd -> waiting (main c) ->
  inevitable (fun c => main c = MTest /\ running (fl c) = false /\ back c = BEnd) n c.
Proof. exact returns_lemma. Qed.
Print Assumptions C34_main_returns.
Theorem C34_prompt_means_idle : forall c, reachable c -> main c = MPrompt \/ main c = MTest ->
  running (fl c) = false /\ ~ alive (back c) /\ (main c = MPrompt -> handlers c = []).
Proof. exact prompt_lemma. Qed.
Print Assumptions C34_prompt_means_idle.
(** a run starts with no other one alive and with the flags of an idle solver *)
Theorem C34_run_starts_idle : forall c c', reachable c -> step c Started c' ->
  ~ alive (back c) /\ back c' = BStart /\ idle (fl c') /\ running (fl c') = true.
Proof. exact started_lemma. Qed.
Print Assumptions C34_run_starts_idle.

Example C34_witness : exists c, reachable c /\ back c = BEnd /\ main c = MLoop /\ solving (fl c) = true.
Proof.
  destruct just_started_reachable as [ls S]. exists (MkConf (set_running false (set_solving true fl1)) MLoop [] BEnd). split; [|auto].
  exists (ls ++ [Quiet; Quiet; Quiet]). eapply steps_app; [exact S|].
  eapply steps_cons; [apply step_work, work_start|]. eapply steps_cons; [apply step_work, work_solve_raises|]. apply steps_one, step_work, work_catch.
Qed.

(** C55: a search that is stopped later, or not at all, has done the same things
    and more: it has either found smaller solutions or kept the same ones. *)
Theorem C55_stopping_later_loses_nothing : forall p R k k' fuel, loaded p -> not_before k k' ->
  let s := snd (solve (stop_at R (Some k)) fuel p) in
  let s' := snd (solve (stop_at R k') fuel p) in
  (exists l, s_log s' = l ++ s_log s) /\
  (s_best_size s' < s_best_size s \/ (s_best_size s' = s_best_size s /\ exists l, s_solutions s' = s_solutions s ++ l)).
Proof. exact stopping_later_lemma. Qed.
Print Assumptions C55_stopping_later_loses_nothing.

Example C55_witness : loaded p_15 /\
  map (fun k => (length (s_solutions (snd (solve (stop_at R_any k) 50 p_15))), length (s_log (snd (solve (stop_at R_any k) 50 p_15))))) [Some 9; Some 20; None]%nat
  = [(0, 1); (1, 2); (2, 3)]%nat.
Proof. split; [exact p_15_loaded|]. vm_compute. reflexivity. Qed.

(** C56.  Full statement: the command line is left only from the prompt.  False:
    Ctrl+C while a command is being loaded leaves it after that command. *)
Theorem C56_left_only_from_prompt_refuted : ~ (forall c, reachable c -> main c = MTest -> cli_running (fl c) = true).
Proof. exact stays_open_refuted_lemma. Qed.
Print Assumptions C56_left_only_from_prompt_refuted.
(** It is, unless a handler has found the backend not running. *)
Theorem C56_left_only_when_not_running_partial :
  (forall c, steps_through (fun c => ~ In HClear (handlers c)) initial_conf c -> main c = MTest -> cli_running (fl c) = true) /\
  (forall c l c', reachable c -> step c l c' -> ~ In HClear (handlers c) -> In HClear (handlers c') -> running (fl c) = false).
Proof. exact (conj stays_open_lemma clear_lemma). Qed.
Print Assumptions C56_left_only_when_not_running_partial.

Example C56_witness : exists c, steps_through (fun c => ~ In HClear (handlers c)) initial_conf c /\ main c = MTest.
Proof.
  exists (MkConf (set_cli_running true initial_flags) MTest [] BNone). split; [|reflexivity]. eapply through_cons; [intros []|apply step_move, move_start|]. apply through_nil. intros [].
Qed.

(** C59 *)
Theorem C59_only_signals_stop : forall c c1 ls c2, reachable c -> step c Started c1 -> steps c1 ls c2 -> same_run ls -> ~ In Signal ls ->
  ~ In (SolveRead false) ls /\ ~ In (ConcludeRead false) ls.
Proof. exact only_signals_lemma. Qed.
Print Assumptions C59_only_signals_stop.

Example C59_witness : exists c c2, reachable c /\ step c Started just_started /\ steps just_started [Quiet; SolveRead true] c2.
Proof.
  exists (MkConf fl1 MStartThread [] BNone), searching. split; [|split; [apply step_move, move_start_thread|]].
  - exists [Quiet; Quiet; Command; Quiet; Quiet]. eapply steps_cons; [apply step_move, move_start|]. eapply steps_cons; [apply step_move, move_test; reflexivity|].
    eapply steps_cons; [apply step_move, move_command|]. eapply steps_cons; [apply step_move, move_load|]. apply steps_one, step_move, move_set_running.
  - eapply steps_cons; [apply step_work, work_start|]. apply steps_one, step_work, (work_read_solving (set_solving true fl1)).
Qed.

(** C60.  Full statement: one Ctrl+C during the search ends the search only; the
    saving is not cut short.  False: the search may end by itself after the signal
    and before the handler looks at self.solving. *)
Theorem C60_stop_spares_saving_refuted : ~ (forall c c1 ls c2, reachable c -> back c = BSolve -> handlers c = [] -> step c Signal c1 -> steps c1 ls c2 -> same_run ls -> ~ In Signal ls ->
  ~ In (ConcludeRead false) ls).
Proof. exact stop_spares_saving_refuted_lemma. Qed.
Print Assumptions C60_stop_spares_saving_refuted.
(** It is spared if the handler looks at self.solving during the search, however
    late it clears it. *)
Theorem C60_stop_spares_saving_partial : forall c ls c', reachable c -> back c = BSolve -> Forall (fun h => h = HStopSolving \/ h = HClear) (handlers c) ->
  steps c ls c' -> same_run ls -> ~ In Signal ls -> ~ In (ConcludeRead false) ls.
Proof. exact stop_spares_saving_lemma. Qed.
Print Assumptions C60_stop_spares_saving_partial.

Example C60_witness : reachable about_to_stop /\ back about_to_stop = BSolve /\ Forall (fun h => h = HStopSolving \/ h = HClear) (handlers about_to_stop) /\ handlers about_to_stop <> [].
Proof. split; [exact about_to_stop_reachable|]. split; [reflexivity|]. split; [repeat constructor|discriminate]. Qed.
