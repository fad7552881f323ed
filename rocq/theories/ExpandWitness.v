(** Concrete networks for the examples and refutations about the expansion. *)
From Verif Require Import Base BaseLemmas Cost CostSpec CostProofs Utils Fractions FractionsProofs Load Tree TreeSpec HeapLemmas Expand ExpandSpec BranchProofs LevelProofs BuildProofs ExpandProofs ExtractProofs MergeProofs SplitProofs.
From Coq Require Import QArith Qcanon.
Open Scope Z_scope.

(** decides links_agree *)
Definition links_check (h : heap Qc) : bool :=
  forallb (fun n => forallb (fun c => (c <? length h)%nat) (n_children n ++ n_parents n)) h &&
  forallb (fun x => forallb (fun y => (cnt y (kids h x) =? cnt x (pars h y))%nat) (seq 0 (length h))) (seq 0 (length h)).
Lemma links_checked h : links_check h = true -> links_agree h.
Proof.
  unfold links_check. rewrite andb_true_iff, !forallb_forall. intros [R C] x y.
  assert (Rg : forall z w, In w (kids h z) \/ In w (pars h z) -> (w < length h)%nat).
  { intros z w I. destruct (Nat.lt_ge_cases z (length h)) as [B|B]; [|rewrite get_beyond in I by exact B; destruct I as [[]|[]]].
    specialize (R (get h z) (nth_In h _ B)). rewrite forallb_forall in R. apply Nat.ltb_lt, R, in_app_iff. exact I. }
  destruct (Nat.lt_ge_cases x (length h)) as [Bx|Bx].
  - destruct (Nat.lt_ge_cases y (length h)) as [By|By].
    + specialize (C x ltac:(apply in_seq; lia)). rewrite forallb_forall in C. apply Nat.eqb_eq, C, in_seq. lia.
    + rewrite (get_beyond h y) by exact By. cbn [dead_node n_parents count_occ]. apply count_occ_not_In. intros I. specialize (Rg x y (or_introl I)). lia.
  - rewrite (get_beyond h x) by exact Bx. cbn [dead_node n_children count_occ]. symmetry. apply count_occ_not_In. intros I. specialize (Rg y x (or_intror I)). lia.
Qed.

(** a source of value [x] at level 0 and its children *)
Definition star (x : Z) (t : tag) (values : list Z) : heap Qc :=
  MkNode (frac_of_Z x) 0 (Some 0) fl_new [] (seq 1 (length values)) [t] 0 ::
  map (fun v => MkNode (frac_of_Z v) 0 (Some 1) fl_new [0%nat] [] [] 0) values.

Lemma divide_example : links_agree (star 10 (TDivide 5) [2; 2; 2; 2; 2]) /\ divisible (star 10 (TDivide 5) [2; 2; 2; 2; 2]) 0 5 0.
Proof.
  split; [apply links_checked; vm_compute; reflexivity|]. constructor.
  - cbn. lia.
  - reflexivity.
  - apply (foz_nonneg 10). lia.
  - reflexivity.
  - apply seq_NoDup.
  - intros I. apply (in_seq 5 1) in I. lia.
  - intros c I. apply (in_seq 5 1) in I. assert (H : c = 1%nat \/ c = 2%nat \/ c = 3%nat \/ c = 4%nat \/ c = 5%nat) by lia. destruct H as [->|[->|[->|[->| ->]]]]; reflexivity.
Qed.
Lemma divide_overload_example : let h := star 1010 (TDivide 5) [202; 202; 202; 202; 202] in
  links_agree h /\ divisible h 0 5 0 /\ ~ (n_value (get h 0) + frac_of_Z 1 * n_value (get h 0) / frac_of_Z 5 <= frac_of_Z conveyor_speed_limit)%Qc.
Proof.
  split; [apply links_checked; vm_compute; reflexivity|]. split; [constructor|].
  - cbn. lia.
  - reflexivity.
  - apply (foz_nonneg 1010). lia.
  - reflexivity.
  - apply seq_NoDup.
  - intros I. apply (in_seq 5 1) in I. lia.
  - intros c I. apply (in_seq 5 1) in I. assert (H : c = 1%nat \/ c = 2%nat \/ c = 3%nat \/ c = 4%nat \/ c = 5%nat) by lia. destruct H as [->|[->|[->|[->| ->]]]]; reflexivity.
  - vm_compute. intros H. apply H. reflexivity.
Qed.
(** the node made for the loop gets no input, and its output belts are those of
    the divided node *)
Lemma divide_loop_lost : exists h a d lvl h' u,
  links_agree h /\ divisible h a d lvl /\ expand_divide h a d = Ok (h', u) /\
  n_value (get h' (length h)) = frac_of_Z 202 /\ n_parents (get h' (length h)) = [] /\
  n_children (get h' (length h)) = n_children (get h' a) /\ n_children (get h' a) <> [] /\
  n_value (get h a) = frac_of_Z 1010 /\ length (n_parents (get h a)) = 0%nat /\ length (n_parents (get h' a)) = 1%nat.
Proof.
  destruct divide_overload_example as (LA & D & Ov). set (h := star 1010 (TDivide 5) [202; 202; 202; 202; 202]) in *.
  destruct (divide_overload_lemma h 0 5 0 1 1 1 3 LA D ltac:(lia) eq_refl 1 0 eq_refl Ov) as (h' & levels & loops & E & ST & _ & _ & _ & _ & _ & _ & K & V & _).
  exists h, O, 5, 0, h', (0 + 1, Z.of_nat (1 + 1)). split; [exact LA|]. split; [exact D|]. split; [exact E|].
  assert (C : match expand_divide h 0 5 with Ok (h2, _) => n_parents (get h2 6) = [] /\ n_children (get h2 0) <> [] /\ length (n_parents (get h2 0)) = 1%nat | Err _ => False end).
  { vm_compute. split; [reflexivity|]. split; [discriminate|reflexivity]. }
  rewrite E in C. destruct C as (C1 & C2 & C3). split; [rewrite V; apply Qc_is_canon; reflexivity|]. split; [exact C1|]. split; [exact K|]. split; [exact C2|].
  split; [reflexivity|]. split; [reflexivity|exact C3].
Qed.

Lemma extract_example : let h := star 62 (TExtract 26) [36; 26] in links_agree h /\ extractable h 0 62 26 0 2 1.
Proof.
  split; [apply links_checked; vm_compute; reflexivity|]. constructor; try reflexivity; [cbn; lia| | |split; reflexivity].
  - right. split; [reflexivity|lia].
  - repeat split; lia.
Qed.
Lemma extract_example_full : let h := star 62 (TExtract 26) [36; 26] in
  links_agree h /\ extractable h 0 62 26 0 2 1 /\ Z.gcd 62 (62 - 26) = 2 /\
  (exists n m l s, find_n_m_l 31 = Ok (n, m, l, s) /\ 62 + l * 2 <= conveyor_speed_limit /\ 0 < l).
Proof.
  cbn zeta. split; [apply extract_example|]. split; [apply extract_example|]. split; [reflexivity|].
  exists 2%nat, 2%nat, 5, 19. split; [vm_compute; reflexivity|]. split; [discriminate|reflexivity].
Qed.
Lemma extract_over_example : let h := star 1010 (TExtract 202) [202; 808] in
  links_agree h /\ extractable h 0 1010 202 0 1 2 /\ Z.gcd 1010 (1010 - 202) = 202 /\
  find_n_m_l 5 = Ok (1%nat, 1%nat, 1, 3) /\ conveyor_speed_limit < 1010 + 1 * 202.
Proof.
  split; [apply links_checked; vm_compute; reflexivity|]. split; [|repeat split].
  constructor; try reflexivity; [cbn; lia| | |split; reflexivity].
  - left. reflexivity.
  - repeat split; lia.
Qed.
Lemma divide_example_full : let h := star 10 (TDivide 5) [2; 2; 2; 2; 2] in
  links_agree h /\ divisible h 0 5 0 /\ find_n_m_l 5 = Ok (1%nat, 1%nat, 1, 3) /\
  compute_n_looping_branches 1 (compute_splitters_count 1 1) (compute_branches_count 1 1) = Ok (1, 0).
Proof. split; [apply divide_example|]. split; [apply divide_example|]. split; reflexivity. Qed.

Lemma divide_partial_lemma : forall h a d lvl n m l s nb ns,
  links_agree h -> divisible h a d lvl -> 2 <= d -> find_n_m_l d = Ok (n, m, l, s) ->
  compute_n_looping_branches l (compute_splitters_count n m) (compute_branches_count n m) = Ok (nb, ns) ->
  let value := n_value (get h a) in
  let back := (frac_of_Z l * value / frac_of_Z d)%Qc in
  let flow := (value + back)%Qc in
  (flow <= frac_of_Z conveyor_speed_limit)%Qc ->
  exists h' levels loops extra, expand_divide h a d = Ok (h', (lvl + 1, Z.of_nat (n + m))) /\
    splitter_tree h h' a n m flow levels loops /\
    levels (n + m)%nat = n_children (get h a) /\ (flow / frac_of_Z (slots n (n + m)))%Qc = (value / frac_of_Z d)%Qc /\
    (forall k t, In t (loops k) -> t = a) /\ flow_to a n m flow loops = back /\
    splitter_count n m levels = s - ns /\
    links_agree h' /\ untouched h h' a (n_children (get h a)) /\
    n_parents (get h' a) = n_parents (get h a) ++ extra /\ Z.of_nat (length extra) = nb /\
    (let threshold := if (length (n_parents (get h a)) =? 0)%nat then 2 else 3 in
     n_expands (get h' a) = n_expands (get h a) ++
       (if threshold <? Z.of_nat (length (n_parents (get h' a))) then [TMerge threshold] else [])).
Proof. intros h a d lvl n m l s nb ns LA D Hd Hf Hb. exact (divide_lemma h a d lvl n m l s LA D Hd Hf nb ns Hb). Qed.
Lemma divide_over_lemma : forall h a d lvl n m l s nb ns,
  links_agree h -> divisible h a d lvl -> 2 <= d -> find_n_m_l d = Ok (n, m, l, s) ->
  compute_n_looping_branches l (compute_splitters_count n m) (compute_branches_count n m) = Ok (nb, ns) ->
  let value := n_value (get h a) in
  let back := (frac_of_Z l * value / frac_of_Z d)%Qc in
  let flow := (value + back)%Qc in
  ~ (flow <= frac_of_Z conveyor_speed_limit)%Qc ->
  exists h' levels loops, let extra := length h in expand_divide h a d = Ok (h', (lvl + 1, Z.of_nat (n + m))) /\
    splitter_tree h h' a n m flow levels loops /\
    levels (n + m)%nat = n_children (get h a) /\ (flow / frac_of_Z (slots n (n + m)))%Qc = (value / frac_of_Z d)%Qc /\
    (forall k t, In t (loops k) -> t = if (k <=? n)%nat then extra else a) /\
    Z.of_nat (length (flat_map loops (seq 1 (n + m)))) = nb /\
    splitter_count n m levels = s - ns /\
    links_agree h' /\
    n_children (get h' extra) = n_children (get h' a) /\ n_value (get h' extra) = back /\ n_level (get h' extra) = None.
Proof. intros h a d lvl n m l s nb ns LA D Hd Hf Hb. exact (divide_overload_lemma h a d lvl n m l s LA D Hd Hf nb ns Hb). Qed.

(** a node fed by four sources *)
Definition funnel : heap Qc :=
  map (fun v => MkNode (frac_of_Z v) 0 (Some 0) fl_new [] [4%nat] [] 0) [1; 2; 3; 4] ++
  [MkNode (frac_of_Z 10) 0 (Some 1) fl_new [0; 1; 2; 3]%nat [] [TMerge 3] 0].
Lemma merge_example : links_agree funnel /\ mergeable funnel 4 /\ length (n_parents (get funnel 4)) = 4%nat.
Proof.
  split; [apply links_checked; vm_compute; reflexivity|]. split; [constructor|reflexivity].
  - cbn. lia.
  - exists 1. reflexivity.
  - apply (seq_NoDup 4 0).
  - intros I. apply (in_seq 4 0) in I. lia.
  - intros p I. apply (in_seq 4 0) in I. assert (H : p = 0%nat \/ p = 1%nat \/ p = 2%nat \/ p = 3%nat) by lia.
    destruct H as [->|[->|[->| ->]]]; (split; [|exists 0; reflexivity]); [apply (foz_nonneg 1)|apply (foz_nonneg 2)|apply (foz_nonneg 3)|apply (foz_nonneg 4)]; lia.
Qed.

(** 19 divided by 19: both loop-back belts of a splitter come back to the node,
    and the merger that takes one of them cuts both *)
Lemma merge_parallel : exists h a h1 u1 h2 u2 p,
  links_agree h /\ divisible h a 19 0 /\ expand_divide h a 19 = Ok (h1, u1) /\ links_agree h1 /\
  n_expands (get h1 a) = [TDivide 19; TMerge 2] /\ expand_merge h1 a 2 = Ok (h2, u2) /\
  In p (n_parents (get h2 a)) /\ ~ In a (n_children (get h2 p)) /\
  length (n_children (get h1 p)) = 3%nat /\ length (n_children (get h2 p)) = 2%nat /\ ~ links_agree h2.
Proof.
  set (h := star 19 (TDivide 19) (repeat 1 19)).
  assert (LA : links_agree h) by (apply links_checked; vm_compute; reflexivity).
  assert (D : divisible h 0 19 0).
  { constructor.
    - cbn. lia.
    - reflexivity.
    - apply (foz_nonneg 19). lia.
    - reflexivity.
    - apply (seq_NoDup 19 1).
    - intros I. apply (in_seq 19 1) in I. lia.
    - intros c I. apply (in_seq 19 1) in I. do 20 (destruct c as [|c]; [first [lia|reflexivity]|]). lia. }
  destruct (divide_lemma h 0 19 0 0 3 8 13 LA D ltac:(lia) eq_refl _ _ ltac:(vm_compute; reflexivity)) as (h1 & levels & loops & extra & E & _ & _ & _ & _ & _ & _ & LA1 & _).
  { vm_compute. discriminate. }
  assert (C : match expand_divide h 0 19 with
    | Ok (h1, _) => match expand_merge h1 0 2 with
      | Ok (h2, _) => n_expands (get h1 0) = [TDivide 19; TMerge 2] /\ n_parents (get h2 0) = [20; 30]%nat /\ n_children (get h2 20) = [23; 30]%nat /\ length (n_children (get h1 20)) = 3%nat
      | Err _ => False end
    | Err _ => False end) by (vm_compute; repeat split).
  rewrite E in C. destruct (expand_merge h1 0 2) as [[h2 u2]|] eqn:Em; [|destruct C]. destruct C as (C1 & C2 & C3 & C4).
  exists h, O, h1, (0 + 1, Z.of_nat (0 + 3)), h2, u2, 20%nat.
  split; [exact LA|]. split; [exact D|]. split; [exact E|]. split; [exact LA1|]. split; [exact C1|]. split; [exact Em|].
  assert (P1 : In 20%nat (n_parents (get h2 0))) by (rewrite C2; left; reflexivity).
  assert (P2 : ~ In 0%nat (n_children (get h2 20))) by (rewrite C3; intros [F|[F|[]]]; discriminate).
  split; [exact P1|]. split; [exact P2|]. split; [exact C4|]. split; [rewrite C3; reflexivity|].
  intros L. specialize (L 20%nat 0%nat). apply (proj1 (count_occ_not_In Nat.eq_dec _ _)) in P2.
  apply (count_occ_In Nat.eq_dec) in P1. lia.
Qed.

Lemma split_example : let h := star 50 (TSplit 60) [10; 20; 20] in links_agree h /\ splittable h 0 60 0 2 3 1.
Proof.
  split; [apply links_checked; vm_compute; reflexivity|]. constructor.
  - cbn. lia.
  - reflexivity.
  - lia.
  - apply (Permutation_app_comm [1%nat] [2%nat; 3%nat]).
  - repeat constructor; cbn [In]; intuition discriminate.
  - split; apply Qc_is_canon; reflexivity.
  - intros E. apply (f_equal (fun q => Qnum (this q))) in E. vm_compute in E. discriminate E.
  - repeat split.
Qed.
Lemma split_self_loop : exists h a c lvl x y o h' u, links_agree h /\ splittable h a c lvl x y o /\ expand_split h a c = Ok (h', u) /\
  In (length h) (n_children (get h' (length h))) /\ ~ In (length h) (n_parents (get h' (length h))) /\ ~ links_agree h'.
Proof.
  destruct split_example as (LA & S). destruct (split_unlinked _ _ _ _ _ _ _ LA S) as (h' & u & E & K & P & N).
  exists (star 50 (TSplit 60) [10; 20; 20]), 0%nat, 60, 0, 2%nat, 3%nat, 1%nat, h', u. repeat (split; [assumption|]). exact N.
Qed.
