(** The size of a tree of the search is the price of its nodes. *)
From Verif Require Import Base BaseLemmas Cost CostSpec CostProofs Utils UtilsSpec UtilsProofs Fractions Load LoadSpec LoadProofs Tree TreeSpec
  Search SearchSpec HeapLemmas CopyProofs TreeInv TreeGrow TreeOps SearchGen SearchInit SearchInv SearchProofs RunRule SizeSpec Halves SearchWitness.
From Coq Require Import QArith Qcanon.
Open Scope Z_scope.

Definition sized (h : heap Z) (t : tree Z) : Prop := exists nodes, lists_tree h t nodes /\ t_size t = zsum (map (node_price h) nodes).

(** the tags an operation adds to its node *)
Definition own_tags (o : op) : list tag :=
  match o with
  | OExtract _ c => if zmem c conveyor_speeds then [] else [TExtract c]
  | ODivide _ d => if d >? 3 then [TDivide d] else []
  | OSplit _ c => [TSplit c]
  | OMerge _ => []
  end.

Lemma children_tags : forall vs h a h' cs, new_children h a vs = Ok (h', cs) -> forall b, (b < length h)%nat -> get h' b = get h b.
Proof.
  induction vs as [|v vs IH]; intros h a h' cs E b B; cbn [new_children] in E; [injection E as <- _; reflexivity|].
  unfold new_child in E. destruct (v <? 0); [discriminate|]. destruct (n_level (get h a)) as [l|]; [|discriminate]. cbn [bind] in E.
  match type of E with bind (new_children ?g a vs) _ = _ => destruct (new_children g a vs) as [[g' cs']|e] eqn:EN; [|discriminate]; set (g0 := g) in * end.
  cbn [bind] in E. injection E as <- _. rewrite (IH _ _ _ _ EN b) by (unfold g0; rewrite app_length; cbn; lia). unfold g0. apply get_app_l, B.
Qed.
Lemma fold_tags {A} (g : A -> nat) (k : A -> node Z -> node Z) (K : forall x n, n_expands (k x n) = n_expands n) : forall l (h : heap Z) b,
  n_expands (get (fold_left (fun h x => upd (g x) (k x) h) l h) b) = n_expands (get h b).
Proof.
  induction l as [|x l IH]; intros h b; [reflexivity|]. cbn [fold_left]. rewrite IH. destruct (Nat.eq_dec b (g x)) as [->|D]; [|rewrite get_upd_other by congruence; reflexivity].
  destruct (Nat.lt_ge_cases (g x) (length h)) as [B|B]; [rewrite get_upd_same by exact B; apply K|].
  rewrite !get_past by (rewrite ?upd_length; lia). reflexivity.
Qed.
Lemma branch_tags h a vs h' cs b : branch h a vs = Ok (h', cs) -> (b < length h)%nat -> n_expands (get h' b) = n_expands (get h b).
Proof.
  intros E B. unfold branch in E. destruct (new_children h a vs) as [[g cs']|e] eqn:EN; [|discriminate]. cbn [bind] in E. injection E as <- _.
  rewrite (fold_tags (fun _ => a) (fun c => add_child c)) by reflexivity. rewrite (children_tags _ _ _ _ _ EN b B). reflexivity.
Qed.
Lemma branch_longer h a vs h' cs : branch h a vs = Ok (h', cs) -> (length h <= length h')%nat.
Proof.
  intros E. unfold branch in E. destruct (new_children h a vs) as [[g cs']|e] eqn:EN; [|discriminate]. cbn [bind] in E. injection E as <- _.
  assert (X : forall l (k : heap Z), length (fold_left (fun h c => upd a (add_child c) h) l k) = length k).
  { induction l as [|x l IH]; intros k; [reflexivity|]. cbn [fold_left]. rewrite IH. apply upd_length. }
  rewrite X. clear X. revert h g cs' EN. induction vs as [|v vs IH]; intros h g cs' EN; cbn [new_children] in EN; [injection EN as <- _; lia|].
  unfold new_child in EN. destruct (v <? 0); [discriminate|]. destruct (n_level (get h a)) as [l|]; [|discriminate]. cbn [bind] in EN.
  match type of EN with bind (new_children ?g0 a vs) _ = _ => destruct (new_children g0 a vs) as [[g' cs'']|e] eqn:E1; [|discriminate] end.
  cbn [bind] in EN. injection EN as <- _. apply IH in E1. rewrite app_length in E1. cbn in E1. lia.
Qed.
Lemma perform_tags h t o h1 cs a : perform h t o = Ok (h1, cs) -> In a (op_nodes t o) -> (a < length h)%nat ->
  n_expands (get h1 a) = n_expands (get h a) ++ own_tags o.
Proof.
  intros E I B. destruct o as [i c|i d|i c|is]; cbn [perform op_nodes own_tags] in *.
  1-3: destruct I as [<-|[]]; unfold source_at in E; destruct (nth_error (t_sources t) i) as [a|] eqn:EN; [|discriminate]; cbn [bind] in E;
    apply (nth_error_nth _ _ O) in EN; rewrite EN in *.
  - unfold node_extract in E. destruct (zmem c conveyor_speeds).
    + rewrite (branch_tags _ _ _ _ _ a E B), app_nil_r. reflexivity.
    + rewrite (branch_tags _ _ _ _ _ a E) by (rewrite upd_length; exact B). rewrite get_upd_same by exact B. reflexivity.
  - unfold node_divide in E. destruct (d =? 0); [discriminate|]. destruct (d >? 3).
    + rewrite (branch_tags _ _ _ _ _ a E) by (rewrite upd_length; exact B). rewrite get_upd_same by exact B. reflexivity.
    + rewrite (branch_tags _ _ _ _ _ a E B), app_nil_r. reflexivity.
  - unfold node_split in E. destruct (negb (zmem c conveyor_speeds)); [discriminate|].
    match type of E with bind ?b _ = _ => destruct b as [[g cs']|e] eqn:EB; [|discriminate] end. cbn [bind] in E. injection E as <- _.
    rewrite get_upd_same by (pose proof (branch_longer _ _ _ _ _ EB); lia). cbn [add_tag set_expands n_expands]. rewrite (branch_tags _ _ _ _ _ a EB B). reflexivity.
  - rewrite app_nil_r. destruct (map_res (source_at t) is) as [ns|e]; [|discriminate]. cbn [bind] in E. destruct (node_merge h ns) as [[g m]|e] eqn:EM; [|discriminate]. cbn [bind] in E. injection E as <- _.
    unfold node_merge in EM. destruct (existsb _ ns); [discriminate|]. destruct (_ <? 0); [discriminate|]. destruct (max_level h ns) as [l|e]; [|discriminate]. cbn [bind] in EM. destruct (_ <=? 1)%nat; [discriminate|]. injection EM as <- _.
    rewrite (fold_tags (fun x => x) (fun _ => add_child (length h))) by reflexivity. rewrite get_app_l by exact B. reflexivity.
Qed.

(** sums that differ at one place *)
Lemma zsum_change (f g : nat -> Z) a : forall l, NoDup l -> In a l -> (forall b, In b l -> b <> a -> f b = g b) ->
  zsum (map f l) = zsum (map g l) + (f a - g a).
Proof.
  induction l as [|x l IH]; intros ND I H; [destruct I|]. apply NoDup_cons_iff in ND. destruct ND as [NI ND]. cbn [map]. rewrite !zsum_cons.
  destruct (Nat.eq_dec x a) as [->|D].
  - rewrite (map_ext_in f g); [lia|]. intros b Hb. apply H; [right; exact Hb|]. intros ->. exact (NI Hb).
  - rewrite (H x) by (auto; left; reflexivity). rewrite IH; [lia|exact ND|destruct I as [I|I]; [congruence|exact I]|]. intros b Hb. apply H. right. exact Hb.
Qed.

Lemma sized_add h h1 t N A cs cost h2 t2 : wf h t N -> grown h h1 A cs -> (forall a, In a A -> In a (t_sources t)) -> NoDup A ->
  (forall a, In a A -> (2 <= length cs)%nat -> split_price (value h a) (n_expands (get h1 a)) = cost) ->
  ((length cs < 2)%nat -> merge_cost (Z.of_nat (length A)) 1 = cost) ->
  tree_add h1 t cs cost = Ok (h2, t2) -> sized h t -> sized h2 t2.
Proof.
  intros W G HA NA SP MP E (nodes & (ND & IN) & SZ). pose proof (add_wf h h1 t N A cs cost W G HA NA) as W2. cbv zeta in W2.
  rewrite (add_runs h h1 t N A cs cost W G HA) in E. injection E as <- <-.
  match type of W2 with wf ?H ?T _ => set (h2 := H) in *; set (t2 := T) in * end.
  assert (IN' : forall a, In a nodes <-> N a) by (intros a; rewrite IN; apply (wf_in_tree h t N a W)).
  assert (X2 : forall a, n_expands (get h2 a) = n_expands (get h1 a)) by (intros a; unfold h2; apply (get_set_levels n_expands); reflexivity).
  exists (nodes ++ cs). split.
  - split.
    + apply nodup_app; [apply (cs_nd _ _ _ _ G)|exact ND|]. intros x Hx. revert Hx. rewrite IN'. apply (old_not_new h h1 t N A cs W G HA).
    + intros a. rewrite in_app_iff, IN'. symmetry. apply (wf_in_tree _ _ _ a W2).
  - change (t_size t2) with (t_size t + cost). rewrite map_app, zsum_app.
    assert (CN : forall c, In c cs -> children h2 c = []) by apply (chi2_new h h1 t A cs G).
    assert (PN : forall c, In c cs -> parents h2 c = A) by apply (par2_new h h1 t A cs G).
    assert (CK : forall a, N a -> ~ In a A -> children h2 a = children h a) by apply (chi2_kept h h1 t N A cs W G).
    assert (CU : forall a, In a A -> children h2 a = cs) by apply (chi2_used h h1 t A cs G).
    assert (PO : forall a, N a -> parents h2 a = parents h a) by apply (par2 h h1 t N A cs W G).
    assert (VO : forall a, N a -> value h2 a = value h a) by apply (val2 h h1 t N A cs W G).
    assert (NEW : forall c, In c cs -> node_price h2 c = merge_cost (Z.of_nat (length A)) 1).
    { intros c Hc. unfold node_price. rewrite (CN c Hc), (PN c Hc). reflexivity. }
    assert (KEPT : forall a, N a -> ~ In a A -> node_price h2 a = node_price h a).
    { intros a Na Ia. unfold node_price. rewrite (CK a Na Ia), (PO a Na), (VO a Na), X2.
      rewrite (gr_old _ _ _ _ G); [reflexivity|apply (wf_bound _ _ _ W), Na|exact Ia]. }
    assert (USED : forall a, In a A -> node_price h2 a = (if (2 <=? length cs)%nat then cost else 0) + node_price h a).
    { intros a Ia. destruct (A_N h t N A W HA a Ia) as [Na CH]. unfold node_price. rewrite (CU a Ia), (PO a Na), (VO a Na), X2, CH.
      cbn [length]. destruct (Nat.leb_spec 2 (length cs)) as [L|L]; [rewrite (SP a Ia L)|]; cbn; lia. }
    destruct (gr_shape _ _ _ _ G) as [(a & EA & L & _)|(c & L & EC & _)].
    + subst A. destruct (A_N h t N [a] W HA a (or_introl eq_refl)) as [Na _].
      rewrite (zsum_change (node_price h2) (node_price h) a nodes ND (proj2 (IN' a) Na)).
      2: { intros b Hb D. apply KEPT; [apply IN', Hb|]. intros [->|[]]. congruence. }
      rewrite (USED a (or_introl eq_refl)). replace (2 <=? length cs)%nat with true by (symmetry; apply Nat.leb_le; exact L).
      replace (zsum (map (node_price h2) cs)) with 0; [lia|]. symmetry.
      assert (Z0 : forall l, (forall c, In c l -> node_price h2 c = 0) -> zsum (map (node_price h2) l) = 0).
      { induction l as [|x l IH]; intros H; [reflexivity|]. cbn [map]. rewrite zsum_cons, H, IH; [reflexivity|intros c Hc; apply H; right; exact Hc|left; reflexivity]. }
      apply Z0. intros c Hc. rewrite (NEW c Hc). reflexivity.
    + subst cs. cbn [length] in *. rewrite (map_ext_in (node_price h2) (node_price h)).
      * cbn [map]. rewrite zsum_cons. rewrite (NEW c (or_introl eq_refl)), (MP ltac:(lia)). cbn. lia.
      * intros a Ha. destruct (in_dec Nat.eq_dec a A) as [I|I]; [rewrite (USED a I); cbn; lia|apply KEPT; [apply IN', Ha|exact I]].
Qed.

Lemma sized_copy h t N hc tc C : wf h t N -> copy_result h t N hc tc C -> sized h t -> sized hc tc.
Proof.
  intros W CR (nodes & (ND & IN) & SZ). exists (map C nodes).
  assert (IN' : forall a, In a nodes <-> N a) by (intros a; rewrite IN; apply (wf_in_tree h t N a W)). split.
  - split.
    + apply nodup_map_inj with N; [|intros a; apply IN'|exact ND]. apply (cr_inj _ _ _ _ _ _ CR).
    + intros c. rewrite (wf_in_tree _ _ _ c (cr_wf _ _ _ _ _ _ CR)), in_map_iff. split; [intros (a & <- & Ha); exists a; split; [apply IN', Ha|reflexivity]|].
      intros (a & Na & ->). exists a. split; [reflexivity|apply IN', Na].
  - rewrite (cr_size _ _ _ _ _ _ CR), SZ, map_map. f_equal. apply map_ext_in. intros a Ha. apply IN' in Ha. unfold node_price.
    destruct (cr_data _ _ _ _ _ _ CR a Ha) as (-> & _ & -> & _). rewrite (cr_children _ _ _ _ _ _ CR a Ha), map_length, rev_length.
    rewrite (Permutation_length (cr_parents _ _ _ _ _ _ CR a Ha)), map_length. reflexivity.
Qed.

Lemma own_price h t N o cost a : wf h t N -> sensible h t o -> priced h t o cost -> In a (op_nodes t o) -> In a (t_sources t) ->
  (forall is, o <> OMerge is) -> split_price (value h a) (n_expands (get h a) ++ own_tags o) = cost.
Proof.
  intros W S PR I Ha NM. apply (wf_open _ _ _ W) in Ha. destruct Ha as [Na CH]. destruct (wf_tags _ _ _ W a Na) as (own & EX & _ & OW).
  rewrite CH in OW. rewrite OW in EX by (cbn; lia). rewrite app_nil_r in EX. rewrite EX.
  assert (SK : split_price (value h a) ((if (3 <? length (parents h a))%nat then [TMerge 3] else []) ++ own_tags o) = split_price (value h a) (own_tags o)) by (destruct (3 <? _)%nat; reflexivity).
  rewrite SK. clear SK. unfold priced, sensible, taken in *. destruct o as [i c|i d|i c|is]; cbn [op_nodes map own_tags] in *; [..|destruct (NM is eq_refl)];
    destruct I as [<-|[]]; cbn [zsum fold_right] in *; rewrite Z.add_0_r in *; set (v := value h (nth i (t_sources t) O)) in *.
  - destruct (zmem c conveyor_speeds) eqn:EC; cbn [split_price]; [|rewrite PR; reflexivity]. unfold extract_cost in PR.
    destruct (v <=? 2); [discriminate|]. destruct S as (_ & Hc & _). replace ((c =? 0) || (c =? v)) with false in PR by lia. rewrite EC in PR. congruence.
  - destruct (d >? 3) eqn:ED; cbn [split_price]; [rewrite PR; reflexivity|]. unfold divide_cost in PR. destruct (v <=? 1); [discriminate|].
    destruct S as (_ & Hd & _). replace (d =? 0) with false in PR by lia. replace (d =? 1) with false in PR by lia. replace ((d =? 2) || (d =? 3)) with true in PR by lia. congruence.
  - cbn [split_price]. congruence.
Qed.

Lemma sized_apply h t N o cost h' t' : wf h t N -> sensible h t o -> priced h t o cost -> apply_op h t o cost = Ok (h', t') -> sized h t -> sized h' t'.
Proof.
  intros W S PR E SZ. destruct (tree_deepcopy_ok h t N W) as (hc & tc & C & EC & CR). unfold apply_op in E. rewrite EC in E. cbn [bind] in E.
  pose proof (cr_wf _ _ _ _ _ _ CR) as WC. set (NC := fun c => exists a, N a /\ c = C a) in *.
  assert (SN : forall i, (i < length (t_sources t))%nat -> N (nth i (t_sources t) O)).
  { intros i Hi. apply (nth_In _ O), (wf_open _ _ _ W) in Hi. tauto. }
  assert (NTH : forall i, (i < length (t_sources t))%nat -> nth i (t_sources tc) O = C (nth i (t_sources t) O)).
  { intros i Hi. rewrite (cr_sources _ _ _ _ _ _ CR). rewrite (nth_indep _ O (C O)) by (rewrite map_length; exact Hi). apply map_nth. }
  assert (BO : match o with OExtract i _ | ODivide i _ | OSplit i _ => (i < length (t_sources t))%nat | OMerge is => forall i, In i is -> (i < length (t_sources t))%nat end).
  { unfold sensible in S. destruct o; tauto. }
  assert (ON : op_nodes tc o = map C (op_nodes t o)) by (apply op_nodes_copy; assumption).
  assert (NO : forall a, In a (op_nodes t o) -> N a).
  { intros a Ha. destruct o as [i c|i d|i c|is]; cbn [op_nodes] in Ha; try (destruct Ha as [<-|[]]; apply SN, BO).
    apply in_map_iff in Ha. destruct Ha as (i & <- & Hi). apply SN, BO, Hi. }
  assert (TK : taken hc tc o = taken h t o).
  { unfold taken. rewrite ON, map_map. apply map_ext_in. intros a Ha. apply (cr_data _ _ _ _ _ _ CR a (NO a Ha)). }
  assert (SL : length (t_sources tc) = length (t_sources t)) by (rewrite (cr_sources _ _ _ _ _ _ CR); apply map_length).
  assert (SC : sensible hc tc o) by (unfold sensible in *; rewrite TK, SL; exact S).
  assert (PC : priced hc tc o cost) by (unfold priced in *; rewrite TK; exact PR).
  destruct (perform_grown hc tc NC o WC SC) as (h1 & cs & EP & G & HA & NA & PV). rewrite EP in E. cbn [bind] in E.
  apply (sized_add hc h1 tc NC (op_nodes tc o) cs cost h' t' WC G HA NA); [| |exact E|apply (sized_copy h t N hc tc C W CR SZ)].
  - intros a Ia L. rewrite (perform_tags hc tc o h1 cs a EP Ia) by (apply (wf_bound _ _ _ WC), (wf_open _ _ _ WC), HA, Ia).
    apply (own_price hc tc NC o cost a WC SC PC Ia (HA a Ia)). intros is ->. apply Permutation_length in PV. rewrite map_length in PV. cbn in PV. lia.
  - intros L. apply Permutation_length in PV. rewrite map_length in PV. unfold priced, sensible in *. destruct o as [i c|i d|i c|is]; cbn [given length] in PV; try lia.
    + rewrite repeat_length in PV. destruct SC as (_ & Hd & _). lia.
    + cbn [op_nodes]. rewrite map_length. congruence.
Qed.

Lemma sized_extends h h' t N : extends h h' -> wf h t N -> sized h t -> sized h' t.
Proof.
  intros E W (nodes & (ND & IN) & SZ). pose proof (wf_extends h h' t N E W) as W'.
  exists nodes. assert (IN' : forall a, In a nodes <-> N a) by (intros a; rewrite IN; apply (wf_in_tree h t N a W)). split; [split; [exact ND|]|].
  - intros a. rewrite IN'. symmetry. apply (wf_in_tree h' t N a W').
  - rewrite SZ. f_equal. apply map_ext_in. intros a Ha. apply IN' in Ha. unfold node_price, children, parents, value.
    rewrite (extends_get _ _ _ E) by (apply (wf_bound _ _ _ W), Ha). reflexivity.
Qed.

Lemma sized_unique h t nodes : sized h t -> lists_tree h t nodes -> t_size t = zsum (map (node_price h) nodes).
Proof.
  intros (l & (ND & IN) & ->) (ND' & IN'). apply zsum_perm, Permutation_map. apply NoDup_Permutation; [assumption..|]. intros a. rewrite IN, IN'. reflexivity.
Qed.

(** over a run *)
Definition all_sized (p : problem) (s : state) : Prop := forall t, In t (explored p (s_log s)) -> sized (s_heap s) t.

(** taking a tree in changes neither the nodes nor the log *)
Definition same_nodes (s0 s : state) : Prop := s_heap s = s_heap s0 /\ s_log s = s_log s0.
Section Enqueue.
Variable p : problem.
Variable R : oracle.
Variable s0 : state.
Lemma purge_same : forall i s, same_nodes s0 s -> wp (purge_loop R i) (fun _ s' => same_nodes s0 s') (fun _ s' => same_nodes s0 s') s.
Proof.
  induction i as [|i IH]; intros s H; [exact H|]. cbn [purge_loop]. apply wp_bind, wp_solving. intros b. destruct (negb b); [apply wp_ret; exact H|].
  apply wp_bind, wp_gets, wp_bind, wp_gets. destruct (nth_error _ i) as [[t q]|]; [|exact H]. apply wp_bind. destruct (t_size t >=? _).
  - apply wp_modify. apply IH. exact H.
  - apply wp_ret. apply IH. exact H.
Qed.
Lemma enqueue_same t s : same_nodes s0 s -> wp (enqueue R p t) (fun _ s' => same_nodes s0 s') (fun _ s' => same_nodes s0 s') s.
Proof.
  intros H. unfold enqueue. apply wp_bind, wp_solving. intros b. destruct (negb b); [apply wp_ret; exact H|]. apply wp_bind, wp_gets.
  destruct (is_solution _ _ _).
  - apply wp_bind. unfold solution_found. apply wp_bind, wp_gets, wp_bind, wp_gets, wp_bind, wp_gets. destruct (_ || _).
    + apply wp_bind, wp_modify, wp_ret. unfold purge_queue. apply wp_bind, wp_gets, purge_same. exact H.
    + destruct (t_size t =? _).
      * apply wp_bind. unfold wp at 1. destruct (any_same_ok R t (s_solutions (with_counters (S (s_reads s)) (s_scores s) (s_picks s) (s_sames s) s)) (with_counters (S (s_reads s)) (s_scores s) (s_picks s) (s_sames s) s)) as (known & k & ->).
        destruct known; [apply wp_ret, wp_ret|apply wp_bind, wp_modify, wp_ret, wp_ret]; exact H.
      * apply wp_bind, wp_modify, wp_ret, wp_ret. exact H.
  - apply wp_bind, wp_gets, wp_bind, wp_modify, wp_modify. exact H.
Qed.
End Enqueue.
Lemma enqueue_keeps p R t s : same_nodes s (snd (enqueue R p t s)).
Proof.
  pose proof (enqueue_same p R s t s (conj eq_refl eq_refl)) as E. unfold wp in E. destruct (enqueue R p t s) as [[u|e] s']; exact E.
Qed.

Lemma sized_same p s s' : same_nodes s s' -> all_sized p s -> all_sized p s'.
Proof. intros [H L] A t I. rewrite H. apply A. rewrite <- L. exact I. Qed.

Lemma initial_sized p : loaded p -> sized (fst (initial_tree p)) (snd (initial_tree p)).
Proof.
  intros L. pose proof (iv_good _ _ _ _ _ _ _ _ (initial_inv p (loaded_ok p L))) as GD. rewrite Forall_forall in GD.
  destruct (GD (snd (initial_tree p))) as [N G]; [left; reflexivity|]. pose proof (gd_wf _ _ _ _ G) as W. clear GD G.
  change (s_heap (initial_state p)) with (fst (initial_tree p)) in W. set (h := fst (initial_tree p)) in *. set (t := snd (initial_tree p)) in *.
  assert (ES : t_sources t = t_roots t) by reflexivity.
  assert (RO : forall a, In a (t_roots t) -> N a /\ children h a = [] /\ parents h a = []).
  { intros a Ha. pose proof (wf_roots _ _ _ W a Ha) as Na. split; [exact Na|]. split; [|apply (wf_top _ _ _ W a Na), Ha]. rewrite <- ES in Ha. apply (wf_open _ _ _ W) in Ha. apply Ha. }
  exists (t_roots t). split.
  - split; [apply (wf_roots_nd _ _ _ W)|]. intros a. split.
    + intros Ha. exists a. split; [exact Ha|constructor].
    + intros (r & Hr & B). assert (X : a = r); [|subst a; exact Hr]. revert Hr. induction B as [|r a b B IH Hb]; intros Hr; [reflexivity|].
      assert (E : a = r) by (apply IH, Hr). subst a. destruct (RO r Hr) as (_ & CH & _). rewrite CH in Hb. destruct Hb.
  - change (t_size t) with 0. symmetry. assert (X : forall l, (forall a, In a l -> In a (t_roots t)) -> zsum (map (node_price h) l) = 0).
    { induction l as [|a l IH]; intros H; [reflexivity|]. cbn [map]. rewrite zsum_cons, IH by (intros b Hb; apply H; right; exact Hb).
      destruct (RO a) as (_ & CH & PA); [apply H; left; reflexivity|]. unfold node_price. rewrite CH, PA. reflexivity. }
    apply X. auto.
Qed.

Lemma run_sized p R fuel : loaded p -> all_sized p (snd (solve R fuel p)).
Proof.
  intros L. apply (run_rule p L R (all_sized p)).
  - intros a b c d s H. exact H.
  - intros q s _ H. exact H.
  - apply (sized_same p (initial_state p)); [apply enqueue_keeps|]. intros t I. cbn in I. destruct I as [<-|[]]. apply (initial_sized p L).
  - intros t N sim o cost s I It _ G C _ H. assert (W : wp (try_body R p t sim o cost) (fun _ s' => all_sized p s') (fun _ s' => all_sized p s') s).
    { unfold try_body. apply wp_bind, wp_solving. intros b. destruct (negb b); [apply wp_ret; exact H|]. apply wp_bind, wp_gets, wp_bind. unfold wp at 1, lift.
      pose proof (gd_wf _ _ _ _ G) as W. pose proof (cd_sensible _ _ _ _ _ _ _ C) as SE. pose proof (cd_priced _ _ _ _ _ _ _ C) as PR.
      change (s_heap (with_counters (S (s_reads s)) (s_scores s) (s_picks s) (s_sames s) s)) with (s_heap s).
      destruct (apply_op_ok (s_heap s) t N o cost W SE) as (h' & new & N' & EA & AP). rewrite EA.
      apply wp_bind, wp_modify, wp_bind, wp_modify, wp_bind. set (s2 := with_log _ _).
      assert (H2 : all_sized p s2).
      { intros u Hu. change (s_log s2) with (MkEvent t o sim cost new :: s_log s) in Hu. change (s_heap s2) with h'. cbn [explored map app ev_to] in Hu. destruct Hu as [<-|Hu].
        - apply (sized_apply (s_heap s) t N o cost h' new W SE PR EA). apply H, It.
        - pose proof (iv_good _ _ _ _ _ _ _ _ I) as GD. rewrite Forall_forall in GD. destruct (GD u Hu) as [Nu Gu].
          apply (sized_extends (s_heap s) h' u Nu (ap_extends _ _ _ _ _ _ _ _ AP) (gd_wf _ _ _ _ Gu)), H, Hu. }
      pose proof (sized_same p _ _ (enqueue_keeps p R new s2) H2) as E. unfold wp in *. destruct (enqueue R p new s2) as [[u|e] s']; exact E. }
    unfold wp in W. destruct (try_body R p t sim o cost s) as [[u|e] s']; exact W.
Qed.

Lemma c69_size_lemma : forall p R fuel t nodes, loaded p -> let s := snd (solve R fuel p) in
  In t (explored p (s_log s)) -> lists_tree (s_heap s) t nodes -> t_size t = zsum (map (node_price (s_heap s)) nodes).
Proof. intros p R fuel t nodes L s I N. apply sized_unique; [|exact N]. apply (run_sized p R fuel L t I). Qed.
Lemma c69_listed_lemma : forall p R fuel t, loaded p -> let s := snd (solve R fuel p) in
  In t (explored p (s_log s)) -> exists nodes, lists_tree (s_heap s) t nodes.
Proof. intros p R fuel t L s I. destruct (run_sized p R fuel L t I) as (nodes & N & _). exists nodes. exact N. Qed.

Lemma c69_example_lemma : loaded p_9 /\ let s := snd (solve R0 10 p_9) in
  exists t nodes, In t (explored p_9 (s_log s)) /\ lists_tree (s_heap s) t nodes /\ t_size t = 4 /\ t_source_values t = [4; 5].
Proof.
  split; [exact p_9_loaded|]. intros s.
  assert (E : existsb (fun t => (t_size t =? 4) && tuple_eqb (t_source_values t) [4; 5]) (explored p_9 (s_log s)) = true) by (vm_compute; reflexivity).
  apply existsb_exists in E. destruct E as (t & I & E). apply andb_true_iff in E. destruct E as [E1 E2].
  destruct (c69_listed_lemma p_9 R0 10%nat t p_9_loaded I) as (nodes & N). exists t, nodes. split; [exact I|]. split; [exact N|].
  split; [lia|]. apply tuple_Z_decides, E2.
Qed.
