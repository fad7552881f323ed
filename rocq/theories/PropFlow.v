(** Theorems about the flows in the expanded drawing of a solution. *)
From Verif Require Import Base Cost Utils Fractions Load LoadSpec Tree TreeSpec Search SearchSpec SearchWitness Real RealSpec Expand
  Conclude SavedSpec SavedProofs FlowSpec FlowFinal FlowWitness.
From Coq Require Import QArith Qcanon.
Open Scope Z_scope.

(** C65.  The full statement is refuted (C65_expanded_network_works_refuted).
    Missing here: solutions after the first when a target is repeated; networks
    with an overloaded node or one where belts get lost ([torn]).  Without these,
    the expanded first solution is a network of belts, mergers and splitters in
    which the flows of the sources arrive as the flows of the targets.  A total of
    at most eight units is too small for overloaded nodes and lost belts. *)
Theorem C65_expanded_network_works_partial : forall p R fuel t rest concluding, loaded p ->
  let s := snd (solve R fuel p) in
  s_solutions s = t :: rest -> (concluding O = true \/ rest = []) ->
  exists h' t', network h' t' (p_sources p) /\ t_roots t' = t_roots t /\
    (zsum (p_sources p) <= 8 -> forall a, in_tree h' t' a -> ~ overloaded h' a /\ ~ torn h' a) /\
    ((forall a, in_tree h' t' a -> ~ overloaded h' a) ->
      exists n0 g, (forall n, (n0 <= n)%nat -> exists files r,
        conclude n concluding p s = (MkSaved 0 false (map node_frac (set_levels 0 (t_roots t) h')) (t_roots t) :: MkSaved 0 true g (t_roots t) :: files, r)) /\
      (forall x, reached (fun x => n_children (get g x)) (t_roots t) x -> n_expands (get g x) = []) /\
      ((forall a, in_tree h' t' a -> ~ torn h' a) ->
        map (fun r => n_value (get g r)) (t_roots t) = map frac_of_Z (p_sources p) /\
        forall M, 1200 <= M -> (forall a, in_tree h' t' a -> value h' a <= M) -> delivers g (t_roots t) (p_target_integers p) M)).
Proof. exact c65_lemma. Qed.
Print Assumptions C65_expanded_network_works_partial.

Example C65_witness : loaded p_7 /\ zsum (p_sources p_7) <= 8 /\ (exists t rest, s_solutions (snd (solve R0 50 p_7)) = t :: rest) /\
  exists f g roots files, fst (conclude 60 (fun _ => true) p_7 (snd (solve R0 50 p_7))) = f :: MkSaved 0 true g roots :: files /\
    forall x, reached (fun x => n_children (get g x)) roots x -> n_expands (get g x) = [].
Proof. exact c65_example_lemma. Qed.

(** With pairwise distinct targets this holds for every solution. *)
Theorem C65_distinct_targets_work_partial : forall p R fuel concluding M, loaded p -> NoDup (p_target_integers p) ->
  let s := snd (solve R fuel p) in
  (forall t a, In t (s_solutions s) -> in_tree (s_heap s) t a -> ~ overloaded (s_heap s) a) ->
  1200 <= M -> (forall t a, In t (s_solutions s) -> in_tree (s_heap s) t a -> value (s_heap s) a <= M) ->
  exists n0 files h', (forall n, (n0 <= n)%nat -> conclude n concluding p s = (files, Ok h')) /\
    forall f, In f files -> sv_expanded f = true -> exists t, nth_error (s_solutions s) (sv_index f) = Some t /\ sv_roots f = t_roots t /\
      (forall x, reached (fun x => n_children (get (sv_heap f) x)) (sv_roots f) x -> n_expands (get (sv_heap f) x) = []) /\
      ((forall a, in_tree (s_heap s) t a -> ~ torn (s_heap s) a) ->
        map (fun r => n_value (get (sv_heap f) r)) (sv_roots f) = map frac_of_Z (p_sources p) /\
        delivers (sv_heap f) (sv_roots f) (p_target_integers p) M).
Proof. exact c65_distinct_lemma. Qed.
Print Assumptions C65_distinct_targets_work_partial.

Theorem C65_small_totals_meet_conditions : forall p R fuel, loaded p -> zsum (p_sources p) <= 8 ->
  let s := snd (solve R fuel p) in
  forall t a, In t (s_solutions s) -> in_tree (s_heap s) t a -> ~ overloaded (s_heap s) a /\ ~ torn (s_heap s) a /\ value (s_heap s) a <= 8.
Proof. exact c65_small_lemma. Qed.
Print Assumptions C65_small_totals_meet_conditions.

Example C65_distinct_witness : loaded p_7 /\ NoDup (p_target_integers p_7) /\ zsum (p_sources p_7) = 7 /\ length (s_solutions (snd (solve R0 50 p_7))) = 3%nat /\
  existsb (fun n => match n_expands n with TExtract 2 :: _ => true | _ => false end) (s_heap (snd (solve R0 50 p_7))) = true.
Proof. exact p_7_example. Qed.

(** The only solution of 9 to 1 8 is saved without an exception, but in the
    expanded drawing no flow from the source arrives as 1 and 8: of two belts from
    a splitter to a target one is lost when the other is led to a merger. *)
Theorem C65_expanded_network_works_refuted : exists p R fuel n f g roots h', loaded p /\ realistic p R /\
  conclude n (fun _ => true) p (snd (solve R fuel p)) = ([f; MkSaved 0 true g roots], Ok h') /\
  ~ exists nodes through belt, works (fun x => n_children (get g x)) roots (fun r => n_value (get g r)) nodes through belt /\
      Permutation (map through (filter (fun x => match n_children (get g x) with [] => true | _ => false end) nodes)) (map frac_of_Z (p_target_integers p)).
Proof. exact c65_refuted_lemma. Qed.
Print Assumptions C65_expanded_network_works_refuted.

(** C66.  When the network of a solution, with its target groups attached, is
    expanded and no node of it is overloaded, the expansion ends with every node
    of the drawing expanded, whether belts get lost or not. *)
Theorem C66_nothing_left_to_expand : forall p R fuel t, loaded p ->
  let s := snd (solve R fuel p) in
  In t (s_solutions s) ->
  let (h, leaves) := plant (s_heap s) (p_leaves p) in
  exists h' t',
    (forall n, (length h <= n)%nat -> attach_leaves n (map node_frac h) (tree_frac t) leaves = Ok (map node_frac h', tree_frac t')) /\
    ((forall a, in_tree h' t' a -> ~ overloaded h' a) -> exists n0 g,
      (forall n, (n0 <= n)%nat -> expand_roots n (map node_frac (set_levels 0 (t_roots t') h')) (t_roots t') = Ok g) /\
      forall x, reached (fun x => n_children (get g x)) (t_roots t') x -> n_expands (get g x) = []).
Proof. exact c66_lemma. Qed.
Print Assumptions C66_nothing_left_to_expand.

Example C66_witness : let s := snd (solve R0 50 p_7) in loaded p_7 /\ length (s_solutions s) = 3%nat /\
  existsb (fun n => match n_expands n with TExtract 2 :: _ => true | _ => false end) (s_heap s) = true /\
  forall t a, In t (s_solutions s) -> in_tree (s_heap s) t a -> ~ overloaded (s_heap s) a.
Proof. exact c66_example_lemma. Qed.
