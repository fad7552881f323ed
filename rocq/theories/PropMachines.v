(** Property theorems C70 and C71: the size of a solution and the machines in its drawing. *)
From Verif Require Import Base Load Tree TreeSpec Search SearchSpec SearchWitness RealSpec Expand Conclude SizeSpec SavedSpec SavedProofs FlowSpec MachineSpec MachineFinal.
From Coq Require Import QArith Qcanon.
Open Scope Z_scope.

(** C70.  When the network of a solution, with its target groups attached, has no
    overloaded node and none where belts get lost, its expanded drawing holds the
    splitters and mergers counted by the size of the solution and the size of the
    groups, less one merger for each [spared] node. *)
Theorem C70_size_counts_the_machines : forall p R fuel t, loaded p ->
  let s := snd (solve R fuel p) in
  In t (s_solutions s) ->
  let (h, leaves) := plant (s_heap s) (p_leaves p) in
  exists h' t',
    (forall n, (length h <= n)%nat -> attach_leaves n (map node_frac h) (tree_frac t) leaves = Ok (map node_frac h', tree_frac t')) /\
    ((forall a, in_tree h' t' a -> ~ overloaded h' a) -> (forall a, in_tree h' t' a -> ~ torn h' a) ->
      exists n0 g nodes ns,
      (forall n, (n0 <= n)%nat -> expand_roots n (map node_frac (set_levels 0 (t_roots t') h')) (t_roots t') = Ok g) /\
      NoDup nodes /\ (forall x, In x nodes <-> reached (fun x => n_children (get g x)) (t_roots t') x) /\ lists_tree h' t' ns /\
      Z.of_nat (machines (fun x => n_children (get g x)) (t_roots t') nodes) + Z.of_nat (length (filter (spared h' (t_roots t')) ns)) = t_size t + p_size_offset p).
Proof. exact c70_lemma. Qed.
Print Assumptions C70_size_counts_the_machines.

(** "7 to 2 5": the first solution has size 6 and its drawing six machines *)
Example C70_witness : let s := snd (solve R0 50 p_7) in loaded p_7 /\
  (forall t a, In t (s_solutions s) -> in_tree (s_heap s) t a -> ~ overloaded (s_heap s) a /\ ~ torn (s_heap s) a) /\
  exists t rest f g roots files nodes, s_solutions s = t :: rest /\ fst (conclude 60 (fun _ => true) p_7 s) = f :: MkSaved 0 true g roots :: files /\ t_size t + p_size_offset p_7 = 6 /\
    NoDup nodes /\ (forall x, In x nodes <-> reached (fun x => n_children (get g x)) roots x) /\ Z.of_nat (machines (fun x => n_children (get g x)) roots nodes) = 6.
Proof. exact c70_example_lemma. Qed.

(** C71.  The full statement, that the size is the number of splitters and mergers
    in the drawing, is refuted (C71_size_is_the_machines_refuted).  Missing here:
    networks with overloaded nodes or lost belts, and equality when a node is
    [spared].  The drawing never needs more machines than the size says, and
    exactly as many when no node is spared. *)
Theorem C71_size_is_the_machines_partial : forall p R fuel t, loaded p ->
  let s := snd (solve R fuel p) in
  In t (s_solutions s) ->
  let (h, leaves) := plant (s_heap s) (p_leaves p) in
  exists h' t',
    (forall n, (length h <= n)%nat -> attach_leaves n (map node_frac h) (tree_frac t) leaves = Ok (map node_frac h', tree_frac t')) /\
    ((forall a, in_tree h' t' a -> ~ overloaded h' a) -> (forall a, in_tree h' t' a -> ~ torn h' a) ->
      exists n0 g nodes,
      (forall n, (n0 <= n)%nat -> expand_roots n (map node_frac (set_levels 0 (t_roots t') h')) (t_roots t') = Ok g) /\
      NoDup nodes /\ (forall x, In x nodes <-> reached (fun x => n_children (get g x)) (t_roots t') x) /\
      Z.of_nat (machines (fun x => n_children (get g x)) (t_roots t') nodes) <= t_size t + p_size_offset p /\
      ((forall a, in_tree h' t' a -> spared h' (t_roots t') a = false) ->
        Z.of_nat (machines (fun x => n_children (get g x)) (t_roots t') nodes) = t_size t + p_size_offset p)).
Proof. exact c71_partial_lemma. Qed.
Print Assumptions C71_size_is_the_machines_partial.

(** "2 3 to 1 1 1 1 1": the only solution has size 5, but its drawing four
    machines.  The merger of the two sources also takes the belt that the division
    by five leads back, which the size counts as a merger of its own. *)
Theorem C71_size_is_the_machines_refuted : exists p R fuel n t f g roots nodes h', loaded p /\ realistic p R /\ s_solutions (snd (solve R fuel p)) = [t] /\
  conclude n (fun _ => true) p (snd (solve R fuel p)) = ([f; MkSaved 0 true g roots], Ok h') /\
  NoDup nodes /\ (forall x, In x nodes <-> reached (fun x => n_children (get g x)) roots x) /\
  Z.of_nat (machines (fun x => n_children (get g x)) roots nodes) = 4 /\ t_size t + p_size_offset p = 5.
Proof. exact c71_refuted_lemma. Qed.
Print Assumptions C71_size_is_the_machines_refuted.
