(** The splitters and mergers of an expanded drawing and the price of its network. *)
From Verif Require Import Base BaseLemmas Cost CostSpec CostProofs Utils Fractions FractionsProofs Load Tree TreeSpec HeapLemmas BranchProofs Expand ExpandSpec LevelProofs ExpandProofs ExtractProofs
  TraverseSafe SavedSpec SavedProofs Conclude SizeSpec MachineSpec FlowSpec FlowProofs FlowMerge FlowTree FlowOps FlowWalk FlowStart.
From Coq Require Import QArith Qcanon.
Open Scope Z_scope.

Lemma half_Z n : Z.of_nat (n / 2) = Z.of_nat n / 2.
Proof. rewrite Nat2Z.inj_div. reflexivity. Qed.
Lemma merge_cost_one k : 0 <= k -> merge_cost k 1 = k / 2.
Proof. intros H. rewrite merge_cost_closed. destruct (Z.leb_spec k 1) as [L|L]; [symmetry; apply Z.div_small; lia|]. f_equal. lia. Qed.
Lemma levels_count n m q : 0 <= q -> Z.of_nat (length (belt_levels n m q)) = zsum (map (cut_at n m q) (seq 1 (n + m))).
Proof.
  intros Hq. unfold belt_levels. assert (G : forall l, (forall k, In k l -> (0 < k <= n + m)%nat) -> Z.of_nat (length (flat_map (fun k => repeat k (Z.to_nat (cuts n m q k))) l)) = zsum (map (cut_at n m q) l)).
  { induction l as [|k l IH]; intros R; [reflexivity|]. cbn [flat_map map]. change (zsum (?u :: ?v)) with (u + zsum v). rewrite app_length, repeat_length, Nat2Z.inj_add, IH by (intros j J; apply R; right; exact J).
    pose proof (R k (or_introl eq_refl)) as Hk. rewrite cuts_cut by lia. rewrite Z2Nat.id; [reflexivity|]. apply cut_bounds; lia. }
  apply G. intros k I. apply in_seq in I. lia.
Qed.
Lemma gparts_none ts : gparts 0 ts = [].
Proof. induction ts as [|t r IH]; [reflexivity|]. cbn [gparts]. rewrite Zdiv_0_l, Zmod_0_l. exact IH. Qed.

(** the price of a division: the splitters at the node and at the new ones, and
    the mergers for what is led back *)
Lemma divide_price v d q n m l s : 4 <= d -> 0 < v -> v = d * q -> find_n_m_l d = Ok (n, m, l, s) -> v * (d + l) <= 1200 * d ->
  divide_cost v d = Ok (zsum (map (n_at n m l) (seq 0 (n + m))) + (Z.of_nat (length (belt_levels n m l)) + 1) / 2).
Proof.
  intros Hd Hv Ev Ef Lim. destruct (find_n_m_l_positive d n m l s ltac:(lia) Ef) as (Hl & HW & Hnm & Hs).
  assert (Hq : 0 < q) by (clear - Hd Hv Ev; apply (Z.mul_pos_cancel_l d q); lia). assert (Hx : d <= v) by (clear - Hd Hq Ev; nia). rewrite (levels_count n m l Hl), splitters_saved by exact Hl. destruct (Z.eq_dec l 0) as [->|Nl].
  - unfold divide_cost. destruct (Z.leb_spec v 1); [lia|]. destruct (Z.eqb_spec d 0); [lia|]. destruct (Z.eqb_spec d 1); [lia|]. destruct (Z.eqb_spec d 2); [lia|]. destruct (Z.eqb_spec d 3); [lia|]. cbn [orb]. rewrite Ef. cbn [bind Z.eqb].
    f_equal. pose proof (n_looping_branches_spec n m 0 ltac:(lia)) as B. destruct (branch_count n m 0 _ _ ltac:(lia) B) as (B1 & _). rewrite <- B1, gparts_none. cbn. unfold total_splitters. cbn. lia.
  - pose proof (n_looping_branches_spec n m l Hl) as B. destruct (branch_count n m l _ _ ltac:(lia) B) as (B1 & _).
    assert (Fl : (inject_Z v + inject_Z (l * v) / inject_Z d <= inject_Z conveyor_speed_limit)%Q).
    { assert (Nz : ~ (inject_Z d == 0)%Q) by (intros X; apply (inject_Z_injective d 0) in X; lia).
      assert (E : (inject_Z v + inject_Z (l * v) / inject_Z d == inject_Z (v + l * q))%Q) by (rewrite Ev at 2; replace (l * (d * q)) with (l * q * d) by ring; rewrite inject_Z_plus, (inject_Z_mult (l * q) d); field; exact Nz).
      rewrite E, <- Zle_Qle. change conveyor_speed_limit with 1200. apply (Zmult_le_reg_r _ _ d); [lia|]. replace ((v + l * q) * d) with (v * (d + l)) by (rewrite Ev; ring). exact Lim. }
    assert (Dv : (d | v)) by (exists q; rewrite Ev; ring). rewrite (divide_cost_exact v d n m l s _ _ ltac:(lia) Hd Dv Ef ltac:(lia) B Fl). f_equal. unfold charge, loop_merge_cost.
    replace (Qgt_bool (inject_Z v + inject_Z (l * v) / inject_Z d) (inject_Z conveyor_speed_limit)) with false by (symmetry; apply Qgt_bool_false; exact Fl).
    rewrite merge_cost_one by lia. rewrite <- B1, Hs. reflexivity.
Qed.
Lemma extract_price v c n m l s : 3 <= v -> 0 < c < v -> zmem c conveyor_speeds = false ->
  let g := Z.gcd v (v - c) in
  find_n_m_l (v / g) = Ok (n, m, l, s) -> v + l * g <= 1200 ->
  extract_cost v c = Ok (zsum (map (n3_at n m l (c / g) ((v - c) / g)) (seq 0 (n + m))) + (Z.of_nat (length (belt_levels n m l)) + 1) / 2 +
    Z.of_nat (length (belt_levels n m (c / g))) / 2 + Z.of_nat (length (belt_levels n m ((v - c) / g))) / 2).
Proof.
  intros Hv Hc Hm g Ef Lim. pose proof (extract_parts v c Hv Hc) as HP. cbn zeta in HP. fold g in HP. destruct HP as (Hd & He & Exd & Ece).
  destruct (find_n_m_l_positive (v / g) n m l s ltac:(lia) Ef) as (Hl & HW & Hnm & Hs).
  assert (Hg : 0 < g) by (pose proof (Z.gcd_nonneg v (v - c)) as Y; fold g in Y; destruct (Z.eq_dec g 0) as [X|X]; [rewrite X in Ece; lia|lia]).
  assert (Pe : 0 <= c / g) by (apply Z.div_pos; lia). assert (Po : 0 <= (v - c) / g) by (apply Z.div_pos; lia).
  pose proof (n_looping_branches_spec n m l Hl) as B1. pose proof (n_looping_branches_spec n m _ Po) as B2. pose proof (n_looping_branches_spec n m _ Pe) as B3.
  assert (Fl : (inject_Z (v + l * g) <= inject_Z conveyor_speed_limit)%Q) by (rewrite <- Zle_Qle; exact Lim).
  rewrite (extract_cost_exact v c n m l s _ _ _ _ _ _ Hv Hc Hm Ef B1 B2 B3 Fl).
  destruct (charged_parts v c n m l s _ _ _ _ _ _ Hv Hc Ef B1 B2 B3) as (_ & Q1 & Q2 & _ & _ & _ & _ & _ & _ & C1 & C2 & C3 & Sm). fold g in Q1, Q2.
  f_equal. unfold charge, loop_merge_cost. fold g in B2, B3 |- *. replace (Qgt_bool (inject_Z (v + l * g)) (inject_Z conveyor_speed_limit)) with false by (symmetry; apply Qgt_bool_false; exact Fl).
  rewrite !merge_cost_one by lia. rewrite !levels_count by assumption. fold g in C1, C2, C3, Sm. rewrite <- Q1 in C2. rewrite <- Q2 in C3. rewrite <- Q2, <- Q1 in Sm. 
  rewrite <- C1, <- C2, <- C3, Sm. ring.
Qed.

Lemma spare_half L K : ((L + K mod 2) / 2 + (if Nat.odd L && Nat.even K then 1 else 0) = (L + 1) / 2)%nat.
Proof.
  assert (E : forall y, Nat.even (2 * y) = true /\ Nat.odd (2 * y) = false /\ Nat.even (2 * y + 1) = false /\ Nat.odd (2 * y + 1) = true /\ ((2 * y) mod 2 = 0 /\ (2 * y + 1) mod 2 = 1)%nat).
  { intros y. assert (A : Nat.even (2 * y) = true) by (apply Nat.even_spec; exists y; reflexivity). assert (B : Nat.odd (2 * y + 1) = true) by (apply Nat.odd_spec; exists y; reflexivity).
    rewrite <- Nat.negb_even, A, <- (Nat.negb_odd (2 * y + 1)), B. repeat split. { rewrite Nat.mul_comm. apply Nat.mod_mul. lia. } rewrite Nat.add_comm, Nat.mul_comm, Nat.mod_add by lia. reflexivity. }
  destruct (Nat.Even_or_Odd L) as [[x ->]|[x ->]], (Nat.Even_or_Odd K) as [[y ->]|[y ->]]; destruct (E x) as (A1 & A2 & A3 & A4 & A5 & A6); destruct (E y) as (B1 & B2 & B3 & B4 & B5 & B6); rewrite ?A2, ?A4, ?B1, ?B3, ?B5, ?B6; cbn [andb].
  - replace (2 * x + 0)%nat with (0 + x * 2)%nat by lia. replace (2 * x + 1)%nat with (1 + x * 2)%nat by lia. rewrite !Nat.div_add by lia. cbn. lia.
  - lia.
  - replace (2 * x + 1 + 0)%nat with (1 + x * 2)%nat by lia. replace (2 * x + 1 + 1)%nat with (0 + (x + 1) * 2)%nat by lia. rewrite !Nat.div_add by lia. cbn. lia.
  - lia.
Qed.

Section Price.
Variables (h : heap Z) (t : tree Z) (vals : list Z) (g : heap Qc).
Hypothesis N : network h t vals.
Hypothesis Tg : forall a, in_tree h t a -> tagged h a.
Hypothesis Same : forall a, in_tree h t a -> (a < length g)%nat /\ get g a = node_frac (get h a).
Hypothesis Lv : levelled h t.
Hypothesis Ov : forall a, in_tree h t a -> ~ overloaded h a.
Notation start := (start t g).
Notation roots := (t_roots t).

Lemma skip_merge v k own : split_price v ((if (3 <? k)%nat then [TMerge 3] else []) ++ own) = split_price v own.
Proof. destruct (3 <? k)%nat; reflexivity. Qed.
Lemma arriving_split a : length (arriving h a) = (length (named_into h a) + length (named_back h a))%nat.
Proof. unfold arriving. rewrite app_length, map_length. reflexivity. Qed.
Lemma joined_machines x : in_tree h t x -> Z.of_nat ((length (parents h x) + source roots x) / 2) = merge_cost (Z.of_nat (length (parents h x))) 1.
Proof.
  intros I. rewrite merge_cost_one by lia. rewrite half_Z. unfold source. destruct (in_dec Nat.eq_dec x roots) as [R|_]; [|rewrite Nat.add_0_r; reflexivity].
  rewrite (proj2 (net_top _ _ _ N x I) R). reflexivity.
Qed.
Lemma loop_machines x : Z.of_nat ((length (named_back h x) + (length (named_into h x) + source roots x) mod 2) / 2) + (if spared h roots x then 1 else 0) = (Z.of_nat (length (named_back h x)) + 1) / 2.
Proof.
  pose proof (spare_half (length (named_back h x)) (length (named_into h x) + source roots x)) as X. unfold spared. fold (named_back h x). rewrite arriving_split. replace (length (named_into h x) + length (named_back h x) - length (named_back h x))%nat with (length (named_into h x)) by lia.
  fold (source roots x). replace (Z.of_nat (length (named_back h x)) + 1) with (Z.of_nat (length (named_back h x) + 1)) by lia. rewrite <- half_Z, <- X. destruct (_ && _)%bool; lia.
Qed.

Lemma op_price x u : in_tree h t x -> In u (n_expands (get h x)) -> is_op u = true ->
  1 + Z.of_nat (named_pend h t g x) + (if spared h roots x then 1 else 0) = split_price (value h x) [u].
Proof.
  intros I J Ou. assert (O : old start (part h t g) x) by (apply (old_in h t g Same), I). destruct (st_op h t g Tg Same x u O J Ou) as (L & E & S). pose proof (net_positive _ _ _ N x I) as Pv.
  pose proof (loop_machines x) as LM. unfold named_pend. rewrite (st_kids h t g Same x O).
  assert (EG : named_grow h x = new_nodes (value h x) u) by (unfold named_grow; rewrite E; destruct (3 <? _)%nat; cbn [app map list_sum fold_right new_nodes]; lia).
  assert (EB : named_back h x = returned (value h x) u) by (rewrite (back_own h x [u] E); cbn; apply app_nil_r).
  assert (EI : forall c, In c (children h x) -> named_into h c = map (pair x) (delivered h x c)) by (intros c K; apply into_alone, (st_alone h t vals g N Tg Same x c O L K)).
  assert (EF : find extraction (n_expands (get h x)) = if extraction u then Some u else None) by (rewrite E; destruct (3 <? _)%nat; reflexivity).
  assert (Nm : op_named start (named_into h) (named_back h) (named_grow h) x u) by (apply (st_named h t vals g N Tg Same x u O); rewrite (st_tags h t g Same x O); exact J).
  assert (NO : forall d n m l s, branches (value h x) u = Some d -> find_n_m_l d = Ok (n, m, l, s) -> value h x * (d + l) <= 1200 * d).
  { intros d n m l s E1 E2. destruct (Z.le_gt_cases (value h x * (d + l)) (1200 * d)) as [B|B]; [exact B|]. exfalso. apply (Ov x I). exists u, d, n, m, l, s. auto. }
  assert (Plain : extraction u = false -> list_sum (map (fun c => length (named_into h c) / 2)%nat (children h x)) = 0%nat).
  { intros X. rewrite X in EF. assert (G : forall l, (forall c, In c l -> In c (children h x)) -> list_sum (map (fun c => length (named_into h c) / 2)%nat l) = 0%nat); [|apply G; auto].
    induction l as [|c l IH]; intros R; [reflexivity|]. cbn [map]. change (list_sum (?u :: ?v)) with (u + list_sum v)%nat. rewrite IH by (intros c' K; apply R; right; exact K). rewrite EI by (apply R; left; reflexivity). unfold delivered. rewrite EF. reflexivity. }
  rewrite !Nat2Z.inj_add. destruct u as [c|d|k|sp]; try discriminate; cbn [split_price op_named] in *.
  - remember [TExtract c] as own eqn:Eo. destruct S as [c' Bc Nc Pm|d' q _ _ _|c' q _ _ _ _]; [|destruct (3 <? d'); discriminate|discriminate]. destruct (zmem c' _) eqn:Zm; [discriminate|]. injection Eo as ->.
    set (v := value h x) in *. assert (H3 : 3 <= v) by lia. pose proof (extract_parts v c H3 Bc) as HP. cbn zeta in HP. destruct HP as (Hd & He & Exd & Ece).
    destruct (find_n_m_l_spec (v / Z.gcd v (v - c)) Hd) as (n & m & l & s & Ef & _).
    destruct (Nm v n m l s (st_val h t g Same x O) Ef) as (_ & Gr & Into). destruct (pair_vals h t vals g N Tg Same x c c (v - c) O Pm eq_refl) as (e & o & Ne & Pe & Ve & Vo).
    assert (Oe : In e (children h x) /\ In o (children h x)) by (split; apply (Permutation_in _ (Permutation_sym Pe)); cbn; auto). destruct Oe as [Ie Io].
    assert (Kv : forall y, In y (children h x) -> val start y = frac_of_Z (value h y)) by (intros y K; apply (st_val h t g Same), (st_kid h t g Same x y O K)).
    assert (De : length (named_into h e) = length (belt_levels n m (c / Z.gcd v (v - c)))) by (rewrite (Into e c), map_length; [reflexivity|rewrite (st_kids h t g Same x O); exact Ie|rewrite <- Ve; apply Kv, Ie]).
    assert (Do : length (named_into h o) = length (belt_levels n m ((v - c) / Z.gcd v (v - c)))) by (rewrite (Into o (v - c)), map_length; [reflexivity|rewrite (st_kids h t g Same x O); exact Io|rewrite <- Vo; apply Kv, Io]).
    rewrite (list_sum_perm _ _ (Permutation_map (fun c => length (named_into h c) / 2)%nat Pe)). cbn [map list_sum fold_right]. rewrite De, Do, Nat.add_0_r, Nat2Z.inj_add, !half_Z.
    assert (Lb : length (named_back h x) = length (belt_levels n m l)) by (rewrite EB; unfold returned; cbn [branches]; rewrite <- gcd_rest, Ef; reflexivity). rewrite Lb in LM |- *.
    assert (Lim : v + l * Z.gcd v (v - c) <= 1200).
    { pose proof (NO (v / Z.gcd v (v - c)) n m l s) as X. cbn [branches] in X. rewrite gcd_rest in X at 1. specialize (X eq_refl Ef). set (gg := Z.gcd v (v - c)) in *. set (d := v / gg) in *. clear - X Exd Hd. apply (Zmult_le_reg_r _ _ d); [lia|]. assert (M : l * gg * d = l * v) by (rewrite Exd; ring). clear - X M. rewrite Z.mul_add_distr_r, M. lia. }
    rewrite (extract_price v c n m l s H3 Bc Zm Ef Lim). cbn [price_of]. rewrite <- Gr, <- LM. rewrite ?half_Z. ring.
  - remember [TDivide d] as own eqn:Eo. destruct S as [c' _ _ _|d' q Hd Ev Es|c' q _ _ _ _]; [destruct (zmem c' _); discriminate| |discriminate]. destruct (Z.ltb_spec 3 d') as [H3|H3]; [|discriminate]. injection Eo as ->.
    destruct (find_n_m_l_spec d ltac:(lia)) as (n & m & l & s & Ef & _). destruct Nm as (Nm & _). destruct (Nm n m l s Ef) as (Eb & Gr). rewrite (Plain eq_refl).
    rewrite Eb in LM |- *. rewrite (divide_price (value h x) d q n m l s ltac:(lia) Pv Ev Ef (NO d n m l s eq_refl Ef)). cbn [price_of]. rewrite <- Gr, <- LM. change (Z.of_nat 0) with 0. rewrite ?half_Z. ring.
  - rewrite (Plain eq_refl), EG. cbn [new_nodes]. rewrite EB in LM |- *. change (returned (value h x) (TSplit sp)) with (@nil nat) in *. cbn [length] in *. change ((Z.of_nat 0 + 1) / 2) with 0 in LM. change (Z.of_nat 2) with 2. change (Z.of_nat 0) with 0. lia.
Qed.

Lemma node_machines x : in_tree h t x ->
  Z.of_nat (at_node roots (ki start) (pa start) x) + Z.of_nat (if operated t g x then named_pend h t g x else 0) + (if spared h roots x then 1 else 0) = node_price h x.
Proof.
  intros I. assert (O : old start (part h t g) x) by (apply (old_in h t g Same), I). unfold at_node, fan_in, ki, pa. rewrite (st_kids h t g Same x O), (st_pars h t g Same x O). rewrite (cnt_out x) by (apply (st_loop h t g Lv Tg Same x O)). rewrite Nat.add_0_r.
  rewrite Nat2Z.inj_add, (joined_machines x I). unfold node_price. destruct (operated t g x) eqn:Op.
  - apply operated_iff in Op. destruct Op as (u & J & Ou). rewrite (st_tags h t g Same x O) in J. destruct (st_op h t g Tg Same x u O J Ou) as (L & E & _). rewrite (proj2 (Nat.leb_le _ _) L), E, skip_merge, <- (op_price x u I J Ou). change (Z.of_nat 1) with 1. ring.
  - assert (Hn : ~ has_op start x) by (intros X; apply operated_iff in X; congruence). destruct (st_own h t g Tg Same x O) as (own & E & F & _).
    assert (own = []) as -> by (destruct F as [->|(u & -> & Ou)]; [reflexivity|]; exfalso; apply Hn; exists u; rewrite (st_tags h t g Same x O), E; split; [apply in_or_app; right; left; reflexivity|exact Ou]).
    assert (Sp : spared h roots x = false) by (unfold spared; fold (named_back h x); rewrite (back_own h x [] E); reflexivity). rewrite Sp, E, skip_merge. cbn [split_price]. destruct (2 <=? _)%nat; cbn [Z.of_nat]; lia.
Qed.

Lemma machines_price ns : lists_tree h t ns -> Z.of_nat (all_machines h t g ns) + Z.of_nat (length (filter (spared h roots) ns)) = zsum (map (node_price h) ns).
Proof.
  intros (_ & IN). unfold all_machines. assert (G : forall l, (forall x, In x l -> in_tree h t x) -> Z.of_nat (list_sum (map (at_node roots (ki start) (pa start)) l) + list_sum (map (named_pend h t g) (filter (operated t g) l))) + Z.of_nat (length (filter (spared h roots) l)) = zsum (map (node_price h) l)); [|apply G; intros x; apply IN].
  induction l as [|x l IH]; intros R; [reflexivity|]. cbn [map]. change (zsum (?u :: ?v)) with (u + zsum v). rewrite <- IH by (intros y K; apply R; right; exact K). rewrite <- (node_machines x) by (apply R; left; reflexivity). cbn [filter].
  change (list_sum (at_node roots (ki start) (pa start) x :: ?v)) with (at_node roots (ki start) (pa start) x + list_sum v)%nat.
  destruct (operated t g x), (spared h roots x); cbn [map length]; repeat change (list_sum (named_pend h t g x :: ?v)) with (named_pend h t g x + list_sum v)%nat; lia.
Qed.
End Price.
