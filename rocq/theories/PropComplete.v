(** C61: what the search tries. *)
From Verif Require Import Base Cost Utils Load Tree TreeSpec Search SearchSpec RealSpec CompleteSpec CompleteProofs CompleteWitness RunProofs.
Open Scope Z_scope.

(** C61.  Full statement: a search that runs to its end without being stopped has
    tried every operation that no rule speaks against, on every tree it has built.
    False: sources of the same flow are tried once, and the first of them may be
    the one to which a flow would come back. *)
Theorem C61_nothing_missed_refuted : ~ (forall p R fuel t o, loaded p -> realistic p R -> o_stop R = None -> fst (solve R fuel p) = Ok tt ->
  let s := snd (solve R fuel p) in
  In t (explored p (s_log s)) -> t_source_values t <> p_targets p ->
  offered (s_heap s) t o -> passes p (s_heap s) (s_log s) (s_best_size s) t o (used t o) ->
  exists e, In e (s_log s) /\ ev_from e = t /\ same_op (s_heap s) t o (ev_op e)).
Proof. exact nothing_missed_refuted_lemma. Qed.
Print Assumptions C61_nothing_missed_refuted.
(** It has, when no flow comes back to any source as large as the ones used.
    Missing: operations for which this holds only of the sources used. *)
Theorem C61_nothing_missed_partial : forall p R fuel t o, loaded p -> o_stop R = None -> fst (solve R fuel p) = Ok tt ->
  let s := snd (solve R fuel p) in
  In t (explored p (s_log s)) -> t_source_values t <> p_targets p ->
  offered (s_heap s) t o -> passes p (s_heap s) (s_log s) (s_best_size s) t o (as_large (s_heap s) t o) ->
  exists e, In e (s_log s) /\ ev_from e = t /\ same_op (s_heap s) t o (ev_op e).
Proof. exact nothing_missed_lemma. Qed.
Print Assumptions C61_nothing_missed_partial.

Example C61_witness : let s := snd (solve R_any 50 p_6) in let t := snd (initial_tree p_6) in let o := ODivide 0 2 in
  loaded p_6 /\ fst (solve R_any 50 p_6) = Ok tt /\ In t (explored p_6 (s_log s)) /\ t_source_values t <> p_targets p_6 /\
  offered (s_heap s) t o /\ passes p_6 (s_heap s) (s_log s) (s_best_size s) t o (as_large (s_heap s) t o).
Proof. split; [exact p_6_loaded|exact p_6_example]. Qed.
