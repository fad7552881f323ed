(** Theorems about which solutions are saved without an exception. *)
From Verif Require Import Base BaseLemmas Cost Utils Fractions Load LoadSpec Tree TreeSpec Search SearchSpec SearchWitness Expand
  Conclude SavedSpec SavedProofs.
From Coq Require Import QArith Qcanon.
Open Scope Z_scope.

(** C41.  The full statement is refuted (C41_expanded_solutions_saved_refuted).
    The first solution is drawn and, if no node of its network is overloaded,
    expanded and drawn again; a single solution is then all there is to save. *)
Theorem C41_first_solution_expanded_partial : forall p R fuel t rest concluding, loaded p ->
  let s := snd (solve R fuel p) in
  s_solutions s = t :: rest -> (concluding O = true \/ rest = []) ->
  exists h' t', network h' t' (p_sources p) /\ levelled h' t' /\ (forall a, in_tree h' t' a -> tagged h' a) /\
    Permutation (t_source_values t') (p_target_integers p) /\ t_roots t' = t_roots t /\
    (zsum (p_sources p) <= 600 -> forall a, in_tree h' t' a -> ~ overloaded h' a) /\
    ((forall a, in_tree h' t' a -> ~ overloaded h' a) ->
      exists n0 g, forall n, (n0 <= n)%nat -> exists files r,
        conclude n concluding p s = (MkSaved 0 false (map node_frac (set_levels 0 (t_roots t) h')) (t_roots t) :: MkSaved 0 true g (t_roots t) :: files, r) /\
        (rest = [] -> files = [] /\ r = Ok g)).
Proof. exact c41_first_lemma. Qed.
Print Assumptions C41_first_solution_expanded_partial.

Example C41_first_witness : loaded p_7 /\ NoDup (p_target_integers p_7) /\ zsum (p_sources p_7) = 7 /\ length (s_solutions (snd (solve R0 50 p_7))) = 3%nat /\
  existsb (fun n => match n_expands n with TExtract 2 :: _ => true | _ => false end) (s_heap (snd (solve R0 50 p_7))) = true.
Proof. exact p_7_example. Qed.

(** With pairwise distinct targets and no overloaded node in a recorded solution,
    all solutions are saved, each as found and expanded. *)
Theorem C41_distinct_targets_saved_partial : forall p R fuel, loaded p -> NoDup (p_target_integers p) ->
  let s := snd (solve R fuel p) in
  (forall t a, In t (s_solutions s) -> in_tree (s_heap s) t a -> ~ overloaded (s_heap s) a) ->
  exists n0 files h', (forall n, (n0 <= n)%nat -> conclude n (fun _ => true) p s = (files, Ok h')) /\
    map (fun f => (sv_index f, sv_expanded f)) files = flat_map (fun i => [(i, false); (i, true)]) (seq 0 (length (s_solutions s))).
Proof. exact c41_all_lemma. Qed.
Print Assumptions C41_distinct_targets_saved_partial.

Example C41_distinct_witness : let s := snd (solve R0 50 p_7) in forall t a, In t (s_solutions s) -> in_tree (s_heap s) t a -> ~ overloaded (s_heap s) a.
Proof. exact p_7_light. Qed.

(** When all sources together carry at most half of the belt limit, no node can be
    overloaded: the first solution is always saved twice, and with distinct
    targets all solutions are. *)
Theorem C41_low_flow_saved_partial : forall p R fuel, loaded p -> zsum (p_sources p) <= 600 ->
  let s := snd (solve R fuel p) in
  (forall t rest, s_solutions s = t :: rest -> exists n0, forall n, (n0 <= n)%nat -> exists f g files r,
     conclude n (fun _ => true) p s = (f :: g :: files, r) /\ sv_index f = O /\ sv_expanded f = false /\ sv_index g = O /\ sv_expanded g = true /\ (rest = [] -> exists h, r = Ok h)) /\
  (NoDup (p_target_integers p) -> exists n0 files h', (forall n, (n0 <= n)%nat -> conclude n (fun _ => true) p s = (files, Ok h')) /\
    map (fun f => (sv_index f, sv_expanded f)) files = flat_map (fun i => [(i, false); (i, true)]) (seq 0 (length (s_solutions s)))).
Proof. exact c41_low_flow_lemma. Qed.
Print Assumptions C41_low_flow_saved_partial.

Example C41_low_flow_witness : loaded p_7 /\ NoDup (p_target_integers p_7) /\ zsum (p_sources p_7) = 7 /\ length (s_solutions (snd (solve R0 50 p_7))) = 3%nat /\
  existsb (fun n => match n_expands n with TExtract 2 :: _ => true | _ => false end) (s_heap (snd (solve R0 50 p_7))) = true.
Proof. exact p_7_example. Qed.

(** C62.  No belt carries more than all sources together, neither in a tree of the
    search nor in a solution with the target groups attached. *)
Theorem C62_belts_within_total : forall p R fuel, loaded p ->
  let s := snd (solve R fuel p) in
  (forall t a, In t (explored p (s_log s)) -> in_tree (s_heap s) t a -> value (s_heap s) a <= zsum (p_sources p)) /\
  (forall t, In t (s_solutions s) -> let (h, leaves) := plant (s_heap s) (p_leaves p) in
    exists h' t', (forall n, (length h <= n)%nat -> attach_leaves n (map node_frac h) (tree_frac t) leaves = Ok (map node_frac h', tree_frac t')) /\
      forall a, in_tree h' t' a -> value h' a <= zsum (p_sources p)).
Proof. exact c62_lemma. Qed.
Print Assumptions C62_belts_within_total.

Example C62_witness : loaded p_7 /\ NoDup (p_target_integers p_7) /\ zsum (p_sources p_7) = 7 /\ length (s_solutions (snd (solve R0 50 p_7))) = 3%nat /\
  existsb (fun n => match n_expands n with TExtract 2 :: _ => true | _ => false end) (s_heap (snd (solve R0 50 p_7))) = true.
Proof. exact p_7_example. Qed.
