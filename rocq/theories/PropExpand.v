(** Theorems about expanding operations into splitters and mergers. *)
From Verif Require Import Base BaseLemmas Cost CostSpec Utils Fractions Load Tree TreeSpec Expand ExpandSpec BranchProofs ExpandProofs ExtractProofs MergeProofs SplitProofs ExpandWitness.
From Coq Require Import QArith Qcanon.
Open Scope Z_scope.

(** C38.  At every level: [cut k] cut branches, the ignored ones are the slots
    under earlier cuts, together the subtrees of that level that fit in [l]; at
    the bottom (under n m (n + m) = 1) they total [l]. *)
Theorem C38_branch_bookkeeping : forall n m l, 0 <= l ->
  exists d, compute_looping_branches n m l (compute_branches_count n m) = Ok d /\
  exists cut : nat -> Z, forall k, (k <= n + m)%nat ->
    lb_get d (level_key n k) = (cut k, covered n cut k) /\
    0 <= cut k /\ (k <> 0%nat -> cut k < radix n k) /\
    cut k + covered n cut k = l / under n m k.
Proof. exact c38_lemma. Qed.
Print Assumptions C38_branch_bookkeeping.

Example C38_witness : exists d, compute_looping_branches 2 1 7 (compute_branches_count 2 1) = Ok d /\
  map (fun k => lb_get d (level_key 2 k)) [0; 1; 2; 3]%nat = [(0, 0); (1, 0); (0, 2); (1, 6)] /\ under 2 1 3 = 1.
Proof. eexists. vm_compute. auto. Qed.

(** C39.  Full statement: also when value + loop-back exceeds the belt limit, all
    loop-back branches go to the node that carries the loop-back flow.  False
    there: see C39_overloaded and C39_expand_divide_refuted. *)
Theorem C39_expand_divide_partial : forall h a d lvl n m l s nb ns,
  links_agree h -> divisible h a d lvl -> 2 <= d -> find_n_m_l d = Ok (n, m, l, s) ->
  compute_n_looping_branches l (compute_splitters_count n m) (compute_branches_count n m) = Ok (nb, ns) ->
  let value := n_value (get h a) in
  let back := (frac_of_Z l * value / frac_of_Z d)%Qc in
  let flow := (value + back)%Qc in
  (flow <= frac_of_Z conveyor_speed_limit)%Qc ->
  exists h' levels loops extra, expand_divide h a d = Ok (h', (lvl + 1, Z.of_nat (n + m))) /\
    splitter_tree h h' a n m flow levels loops /\
    levels (n + m)%nat = n_children (get h a) /\ (flow / frac_of_Z (slots n (n + m)))%Qc = (value / frac_of_Z d)%Qc /\
    (forall k t, In t (loops k) -> t = a) /\ flow_to a n m flow loops = back /\
    splitter_count n m levels = s - ns /\
    links_agree h' /\ untouched h h' a (n_children (get h a)) /\
    n_parents (get h' a) = n_parents (get h a) ++ extra /\ Z.of_nat (length extra) = nb /\
    (let threshold := if (length (n_parents (get h a)) =? 0)%nat then 2 else 3 in
     n_expands (get h' a) = n_expands (get h a) ++
       (if threshold <? Z.of_nat (length (n_parents (get h' a))) then [TMerge threshold] else [])).
Proof. exact divide_partial_lemma. Qed.
Print Assumptions C39_expand_divide_partial.

Example C39_witness : let h := star 10 (TDivide 5) [2; 2; 2; 2; 2] in
  links_agree h /\ divisible h 0 5 0 /\ find_n_m_l 5 = Ok (1%nat, 1%nat, 1, 3) /\
  compute_n_looping_branches 1 (compute_splitters_count 1 1) (compute_branches_count 1 1) = Ok (1, 0).
Proof. exact divide_example_full. Qed.

(** Over the limit the tree is as regular, and the loop-back belts of the binary
    levels go to the extra node, but those of the ternary levels to [a]. *)
Theorem C39_overloaded : forall h a d lvl n m l s nb ns,
  links_agree h -> divisible h a d lvl -> 2 <= d -> find_n_m_l d = Ok (n, m, l, s) ->
  compute_n_looping_branches l (compute_splitters_count n m) (compute_branches_count n m) = Ok (nb, ns) ->
  let value := n_value (get h a) in
  let back := (frac_of_Z l * value / frac_of_Z d)%Qc in
  let flow := (value + back)%Qc in
  ~ (flow <= frac_of_Z conveyor_speed_limit)%Qc ->
  exists h' levels loops, let extra := length h in expand_divide h a d = Ok (h', (lvl + 1, Z.of_nat (n + m))) /\
    splitter_tree h h' a n m flow levels loops /\
    levels (n + m)%nat = n_children (get h a) /\ (flow / frac_of_Z (slots n (n + m)))%Qc = (value / frac_of_Z d)%Qc /\
    (forall k t, In t (loops k) -> t = if (k <=? n)%nat then extra else a) /\
    Z.of_nat (length (flat_map loops (seq 1 (n + m)))) = nb /\
    splitter_count n m levels = s - ns /\
    links_agree h' /\
    n_children (get h' extra) = n_children (get h' a) /\ n_value (get h' extra) = back /\ n_level (get h' extra) = None.
Proof. exact divide_over_lemma. Qed.
Print Assumptions C39_overloaded.

Example C39_overloaded_witness : let h := star 1010 (TDivide 5) [202; 202; 202; 202; 202] in
  links_agree h /\ divisible h 0 5 0 /\
  ~ (n_value (get h 0) + frac_of_Z 1 * n_value (get h 0) / frac_of_Z 5 <= frac_of_Z conveyor_speed_limit)%Qc.
Proof. exact divide_overload_example. Qed.

(** 1010 divided by 5 needs a loop-back of 202, more than a belt carries with the
    1010.  The extra node of value 202 is built without any input, and the
    loop-back goes to the node of 1010. *)
Theorem C39_expand_divide_refuted : exists h a d lvl h' u,
  links_agree h /\ divisible h a d lvl /\ expand_divide h a d = Ok (h', u) /\
  n_value (get h' (length h)) = frac_of_Z 202 /\ n_parents (get h' (length h)) = [] /\
  n_children (get h' (length h)) = n_children (get h' a) /\ n_children (get h' a) <> [] /\
  n_value (get h a) = frac_of_Z 1010 /\ length (n_parents (get h a)) = 0%nat /\ length (n_parents (get h' a)) = 1%nat.
Proof. exact divide_loop_lost. Qed.
Print Assumptions C39_expand_divide_refuted.

(** C40, within the belt limit.  [ext] and [ovf] are the children of values [c]
    and [x - c]; s, sl, so, se and nl, no, ne are the splitters and merged
    branches that extract_cost charges. *)
Theorem C40_expand_extract : forall h a x c lvl ext ovf n m l s nl sl no so ne se,
  links_agree h -> extractable h a x c lvl ext ovf -> 3 <= x -> 0 < c < x ->
  let g := Z.gcd x (x - c) in
  find_n_m_l (x / g) = Ok (n, m, l, s) ->
  let info k := compute_n_looping_branches k (compute_splitters_count n m) (compute_branches_count n m) in
  info l = Ok (nl, sl) -> info ((x - c) / g) = Ok (no, so) -> info (c / g) = Ok (ne, se) ->
  let flow := frac_of_Z (x + l * g) in
  x + l * g <= conveyor_speed_limit ->
  exists h' levels loops, expand_extract h a c = Ok (h', (lvl + 1, Z.of_nat (n + m))) /\
    splitter_tree h h' a n m flow levels loops /\
    levels (n + m)%nat = [] /\
    (forall k y, In y (loops k) -> (k <= n + m)%nat -> y = a \/ y = ext \/ y = ovf) /\
    flow_to a n m flow loops = frac_of_Z (l * g) /\ flow_to ext n m flow loops = frac_of_Z c /\
    flow_to ovf n m flow loops = frac_of_Z (x - c) /\
    splitter_count n m levels = s - (sl + so + se) /\
    links_agree h' /\
    (exists back, n_parents (get h' a) = n_parents (get h a) ++ back /\ Z.of_nat (length back) = nl) /\
    Z.of_nat (length (n_parents (get h' ext))) = ne /\ Z.of_nat (length (n_parents (get h' ovf))) = no /\
    (forall y, (y < length h)%nat -> y <> a -> y <> ext -> y <> ovf -> get h' y = get h y) /\
    (let threshold := if (length (n_parents (get h a)) =? 0)%nat then 2 else 3 in
     forall y k, In (y, k) [(a, threshold); (ext, 3); (ovf, 3)] ->
     n_expands (get h' y) = n_expands (get h y) ++
       (if k <? Z.of_nat (length (n_parents (get h' y))) then [TMerge k] else [])).
Proof. exact extract_lemma. Qed.
Print Assumptions C40_expand_extract.

Example C40_witness : let h := star 62 (TExtract 26) [36; 26] in
  links_agree h /\ extractable h 0 62 26 0 2 1 /\ Z.gcd 62 (62 - 26) = 2 /\
  (exists n m l s, find_n_m_l 31 = Ok (n, m, l, s) /\ 62 + l * 2 <= conveyor_speed_limit /\ 0 < l).
Proof. exact extract_example_full. Qed.

(** Over the limit the loop-back goes to an extra node, which has no level. *)
Theorem C40_overloaded : forall h a x c lvl ext ovf n m l s nl sl no so ne se,
  links_agree h -> extractable h a x c lvl ext ovf -> 3 <= x -> 0 < c < x ->
  let g := Z.gcd x (x - c) in
  find_n_m_l (x / g) = Ok (n, m, l, s) ->
  let info k := compute_n_looping_branches k (compute_splitters_count n m) (compute_branches_count n m) in
  info l = Ok (nl, sl) -> info ((x - c) / g) = Ok (no, so) -> info (c / g) = Ok (ne, se) ->
  let flow := frac_of_Z (x + l * g) in
  conveyor_speed_limit < x + l * g ->
  exists h' levels loops, let extra := length h in expand_extract h a c = Ok (h', (lvl + 1, Z.of_nat (n + m))) /\
    splitter_tree h h' a n m flow levels loops /\
    levels (n + m)%nat = [] /\
    (forall k y, In y (loops k) -> (k <= n + m)%nat -> y = extra \/ y = ext \/ y = ovf) /\
    flow_to extra n m flow loops = frac_of_Z (l * g) /\ flow_to ext n m flow loops = frac_of_Z c /\
    flow_to ovf n m flow loops = frac_of_Z (x - c) /\
    splitter_count n m levels = s - (sl + so + se) /\
    links_agree h' /\
    n_children (get h' extra) = n_children (get h' a) /\ n_value (get h' extra) = frac_of_Z (l * g) /\
    n_level (get h' extra) = None.
Proof. exact extract_overload_lemma. Qed.
Print Assumptions C40_overloaded.

Example C40_overloaded_witness : let h := star 1010 (TExtract 202) [202; 808] in
  links_agree h /\ extractable h 0 1010 202 0 1 2 /\ Z.gcd 1010 (1010 - 202) = 202 /\
  find_n_m_l 5 = Ok (1%nat, 1%nat, 1, 3) /\ conveyor_speed_limit < 1010 + 1 * 202.
Proof. exact extract_over_example. Qed.

(** C42.  Full statement: also when a parent feeds the node through several
    belts.  False then: see C42_expand_merge_refuted.  [mergeable] has single
    links (and parents of known level and flow); [merged_into] says that each new
    node has three inputs, carries what they send, and that no inflow is lost. *)
Theorem C42_expand_merge_partial : forall h a t, links_agree h -> mergeable h a -> 2 <= t ->
  exists h', expand_merge h a t = Ok (h', (0, 0)) /\ merged_into h h' a /\ links_agree h' /\
  Z.of_nat (length (n_parents (get h' a))) <= t /\
  Z.of_nat (length h' - length h) = merge_cost (Z.of_nat (length (n_parents (get h a)))) t.
Proof. exact merge_lemma. Qed.
Print Assumptions C42_expand_merge_partial.

Example C42_witness : links_agree funnel /\ mergeable funnel 4 /\ length (n_parents (get funnel 4)) = 4%nat.
Proof. exact merge_example. Qed.

(** Dividing 19 by 19 returns two belts of one splitter to the node and tags it
    for merging.  The merger takes one of them and cuts both: the node keeps a
    parent that no longer feeds it, and the splitter loses an output. *)
Theorem C42_expand_merge_refuted : exists h a h1 u1 h2 u2 p,
  links_agree h /\ divisible h a 19 0 /\ expand_divide h a 19 = Ok (h1, u1) /\ links_agree h1 /\
  n_expands (get h1 a) = [TDivide 19; TMerge 2] /\ expand_merge h1 a 2 = Ok (h2, u2) /\
  In p (n_parents (get h2 a)) /\ ~ In a (n_children (get h2 p)) /\
  length (n_children (get h1 p)) = 3%nat /\ length (n_children (get h2 p)) = 2%nat /\ ~ links_agree h2.
Proof. exact merge_parallel. Qed.
Print Assumptions C42_expand_merge_refuted.

(** C53.  Full statement: with links_agree h'.  One link is recorded at one end
    only: the new splitter [s] is its own child but not its own parent. *)
Theorem C53_expand_split_partial : forall h a c lvl x y o, links_agree h -> splittable h a c lvl x y o ->
  let s := length h in
  exists h', expand_split h a c = Ok (h', (lvl + 1, 1)) /\
  length h' = S s /\
  n_value (get h' s) = (n_value (get h x) + n_value (get h y))%Qc /\ n_level (get h' s) = Some (lvl + 1) /\
  n_parents (get h' s) = [a] /\ Permutation (n_children (get h' s)) [s; x; y] /\
  get h' a = set_children [s; o] (get h a) /\
  get h' x = set_parents [s] (get h x) /\ get h' y = set_parents [s] (get h y) /\
  (forall w, (w < s)%nat -> w <> a -> w <> x -> w <> y -> get h' w = get h w) /\
  (forall p q, (p, q) <> (s, s) -> count_occ Nat.eq_dec (n_children (get h' p)) q = count_occ Nat.eq_dec (n_parents (get h' q)) p).
Proof. exact split_lemma. Qed.
Print Assumptions C53_expand_split_partial.

Example C53_witness : let h := star 50 (TSplit 60) [10; 20; 20] in links_agree h /\ splittable h 0 60 0 2 3 1.
Proof. exact split_example. Qed.

Theorem C53_expand_split_refuted : exists h a c lvl x y o h' u,
  links_agree h /\ splittable h a c lvl x y o /\ expand_split h a c = Ok (h', u) /\
  In (length h) (n_children (get h' (length h))) /\ ~ In (length h) (n_parents (get h' (length h))) /\ ~ links_agree h'.
Proof. exact split_self_loop. Qed.
Print Assumptions C53_expand_split_refuted.
