(** Property theorems C01-C06 (src/cost.py).  Proofs are in CostProofs.v; the
    vocabulary (splitter trees, merger sequences) is in CostSpec.v. *)
From Verif Require Import Base Cost CostSpec CostProofs.
From Coq Require Import QArith.
Open Scope Z_scope.

(** C01: achievable, and no shorter sequence of mergers achieves it. *)
Theorem C01_merge_cost_minimal : forall n t, 0 <= n -> 1 <= t ->
  exists k, merge_cost n t = Z.of_nat k /\
    (exists b, merged k n b /\ b <= t) /\
    (forall k' b, merged k' n b -> b <= t -> (k <= k')%nat).
Proof. exact c01_merge_cost_minimal_lemma. Qed.
Print Assumptions C01_merge_cost_minimal.

Example C01_witness : merge_cost 8 1 = 4.
Proof. reflexivity. Qed.

(** C02: the returned tree reaches X, its splitters are counted exactly and no
    other pair of depths is cheaper. *)
Theorem C02_find_n_m_l_optimal : forall X, 1 <= X ->
  exists n m l s, find_n_m_l X = Ok (n, m, l, s) /\
    leaves (full n m) = X + l /\ 0 <= l /\ s = splitters (full n m) /\
    forall n' m', X <= leaves (full n' m') -> s <= splitters (full n' m').
Proof. exact c02_find_n_m_l_optimal_lemma. Qed.
Print Assumptions C02_find_n_m_l_optimal.

Theorem C02_find_n_m_l_zero : find_n_m_l 0 = Err ValueError.
Proof. reflexivity. Qed.
Print Assumptions C02_find_n_m_l_zero.

Example C02_witness : find_n_m_l 37 = Ok (1%nat, 3%nat, 17, 27).
Proof. vm_compute. reflexivity. Qed.

(** C03 *)
Theorem C03_fewer_looped_than_wanted : forall X n m l s, 1 <= X ->
  find_n_m_l X = Ok (n, m, l, s) -> l < X.
Proof. exact find_n_m_l_l_small. Qed.
Print Assumptions C03_fewer_looped_than_wanted.

Theorem C03_divide_never_free : forall x d n m l s, 2 <= x -> 2 <= d -> (d | x) ->
  find_n_m_l d = Ok (n, m, l, s) -> l <> x.
Proof. exact c03_divide_never_free_lemma. Qed.
Print Assumptions C03_divide_never_free.

(** C04: the greedy decomposition is a decomposition, has the least number of
    parts, and its saved splitters are counted exactly. *)
Theorem C04_greedy_branches : forall n m l, 0 <= l ->
  exists ts, decomposition n m l ts /\
    compute_n_looping_branches l (fst (compute_tree_info n m)) (snd (compute_tree_info n m))
    = Ok (Z.of_nat (length ts), total_splitters ts) /\
    (forall ts', decomposition n m l ts' -> (length ts <= length ts')%nat) /\
    total_splitters ts = zsum (map (fun t => l / leaves t) (removelast (chain n m))).
Proof. exact c04_greedy_branches_lemma. Qed.
Print Assumptions C04_greedy_branches.

(** the tables handed to the greedy algorithm are those of the tree *)
Theorem C04_tree_info : forall n m,
  compute_tree_info n m = (map splitters (chain n m), map leaves (chain n m)).
Proof. exact c04_tree_info_lemma. Qed.
Print Assumptions C04_tree_info.

Example C04_witness :
  compute_n_looping_branches 17 (fst (compute_tree_info 1 3)) (snd (compute_tree_info 1 3))
  = Ok (5, 6).
Proof. vm_compute. reflexivity. Qed.

(** C05 *)
Theorem C05_extract_cost_positive : forall x c, 3 <= x -> 0 < c < x ->
  exists r, extract_cost x c = Ok r /\ 1 <= r.
Proof. exact extract_cost_pos. Qed.
Print Assumptions C05_extract_cost_positive.

Theorem C05_divide_cost_positive : forall x d, 2 <= x -> 2 <= d -> (d | x) ->
  exists r, divide_cost x d = Ok r /\ 1 <= r.
Proof. exact divide_cost_pos. Qed.
Print Assumptions C05_divide_cost_positive.

Theorem C05_merge_cost_positive : forall k, 2 <= k -> 1 <= merge_cost k 1.
Proof. exact c05_merge_cost_positive_lemma. Qed.
Print Assumptions C05_merge_cost_positive.

Example C05_witness : extract_cost 62 26 = Ok 7 /\ divide_cost 1200 30 = Ok 21.
Proof. split; vm_compute; reflexivity. Qed.

(** C06.  Full statement: for every x, d with d | x,
      divide_cost x d = Ok (charge n (x + l*x/d) s ns nb),
    i.e. the overload is decided on the flow really entering the splitter tree.
    It is false of the code, which uses x + l*x/(2^n*3^m); it holds when the
    real flow is within the limit. *)
Theorem C06_divide_flow_refuted :
  exists (x d : Z) (n m : nat) (l s nb ns : Z),
    2 <= x /\ 4 <= d /\ (d | x) /\ find_n_m_l d = Ok (n, m, l, s) /\ 0 < l /\
    compute_n_looping_branches l (compute_splitters_count n m) (compute_branches_count n m)
    = Ok (nb, ns) /\
    divide_cost x d <> Ok (charge n (inject_Z x + inject_Z (l * x) / inject_Z d) s ns nb).
Proof. exact divide_cost_inexact. Qed.
Print Assumptions C06_divide_flow_refuted.

Theorem C06_extract_flow_refuted :
  exists (x c : Z) (n m : nat) (l s nl sl no so ne se : Z),
  3 <= x /\ 0 < c < x /\ zmem c conveyor_speeds = false /\
  let g := Z.gcd x (x - c) in let d := x / g in
  let info l := compute_n_looping_branches l (compute_splitters_count n m)
                  (compute_branches_count n m) in
  find_n_m_l d = Ok (n, m, l, s) /\
  info l = Ok (nl, sl) /\ info ((x - c) / g) = Ok (no, so) /\ info (c / g) = Ok (ne, se) /\
  extract_cost x c
  <> Ok (charge n (inject_Z (x + l * g)) s (sl + so + se) nl
         + merge_cost no 1 + merge_cost ne 1).
Proof. exact extract_cost_inexact. Qed.
Print Assumptions C06_extract_flow_refuted.

Theorem C06_divide_flow_partial : forall x d n m l s nb ns,
  2 <= x -> 4 <= d -> (d | x) -> find_n_m_l d = Ok (n, m, l, s) -> 0 < l ->
  compute_n_looping_branches l (compute_splitters_count n m) (compute_branches_count n m)
  = Ok (nb, ns) ->
  (inject_Z x + inject_Z (l * x) / inject_Z d <= inject_Z conveyor_speed_limit)%Q ->
  divide_cost x d = Ok (charge n (inject_Z x + inject_Z (l * x) / inject_Z d) s ns nb).
Proof. exact divide_cost_exact. Qed.
Print Assumptions C06_divide_flow_partial.

Theorem C06_extract_flow_partial : forall x c n m l s nl sl no so ne se,
  3 <= x -> 0 < c < x -> zmem c conveyor_speeds = false ->
  let g := Z.gcd x (x - c) in let d := x / g in
  find_n_m_l d = Ok (n, m, l, s) ->
  let info l := compute_n_looping_branches l (compute_splitters_count n m)
                  (compute_branches_count n m) in
  info l = Ok (nl, sl) -> info ((x - c) / g) = Ok (no, so) -> info (c / g) = Ok (ne, se) ->
  (inject_Z (x + l * g) <= inject_Z conveyor_speed_limit)%Q ->
  extract_cost x c
  = Ok (charge n (inject_Z (x + l * g)) s (sl + so + se) nl
        + merge_cost no 1 + merge_cost ne 1).
Proof. exact extract_cost_exact. Qed.
Print Assumptions C06_extract_flow_partial.

Example C06_witness :
  find_n_m_l 7 = Ok (0%nat, 2%nat, 2, 4) /\ (7 | 70) /\ divide_cost 70 7 = Ok 5 /\
  (inject_Z 70 + inject_Z (2 * 70) / inject_Z 7 <= inject_Z conveyor_speed_limit)%Q.
Proof.
  split; [vm_compute; reflexivity|]. split; [exists 10; reflexivity|].
  split; [vm_compute; reflexivity|]. vm_compute. congruence.
Qed.
