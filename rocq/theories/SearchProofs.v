(** Consequences of the invariant of the search. *)
From Verif Require Import Base BaseLemmas Cost CostSpec CostProofs Utils UtilsSpec UtilsProofs Fractions Load LoadSpec LoadProofs Tree TreeSpec
  Search SearchSpec HeapLemmas CopyProofs TreeInv TreeGrow TreeOps SearchGen SearchInit SearchInv.
From Coq Require Import QArith Qcanon.
Open Scope Z_scope.

Lemma run_inv p R fuel : loaded p -> Inv p (snd (solve R fuel p)) /\ later (initial_state p) (snd (solve R fuel p)).
Proof.
  intros L. pose proof (solve_ok p (loaded_ok p L) R fuel _ (le_n _)) as H.
  destruct (solve R fuel p) as [[u|e] s]; [exact H|]. cbn [snd]. tauto.
Qed.

Lemma good_network p h t : good_tree p h t -> network h t (p_sources p) /\ levelled h t /\ (forall a, in_tree h t a -> tagged h a) /\
  (Forall (fun v => v <= 1200) (p_sources p) -> forall a, in_tree h t a -> value h a <= 1200).
Proof.
  intros [N G]. pose proof (gd_wf _ _ _ _ G) as W. assert (IT : forall a, in_tree h t a <-> N a) by (intros a; apply (wf_in_tree h t N a W)).
  split; [|split; [|split]].
  - constructor.
    + intros a Ha. apply (wf_bound _ _ _ W), IT, Ha.
    + apply (gd_roots _ _ _ _ G).
    + apply (wf_roots_nd _ _ _ W).
    + intros a Ha. apply (wf_top _ _ _ W), IT, Ha.
    + intros a b Ha Hb. apply IT. apply IT in Ha. apply (wf_parent _ _ _ W a b Ha Hb).
    + intros a b Ha Hb. apply (wf_links _ _ _ W); apply IT; assumption.
    + intros a Ha. apply (wf_nd _ _ _ W), IT, Ha.
    + intros a Ha. apply (wf_flow _ _ _ W), IT, Ha.
    + intros a Ha. apply (wf_pos _ _ _ W), IT, Ha.
    + intros a b Ha Hb. apply (wf_ids _ _ _ W); apply IT; assumption.
    + intros a. rewrite IT. apply (wf_open _ _ _ W).
    + apply (wf_open_nd _ _ _ W).
    + apply (wf_values _ _ _ W).
    + apply (wf_sorted _ _ _ W).
    + apply (gd_count _ _ _ _ G).
    + apply (gd_total _ _ _ _ G).
  - constructor.
    + intros a b Ha Hb. apply (wf_edges _ _ _ W); [apply IT, Ha|exact Hb].
    + apply (gd_open _ _ _ _ G).
    + intros a Ha Hn. apply IT in Ha. destruct (gd_inner _ _ _ _ G a Ha Hn) as (l & E & L). exists l. split; [exact E|].
      destruct (wf_level _ _ _ W a Ha) as (l' & E' & L'). rewrite E in E'. injection E' as <-. lia.
  - intros a Ha. apply (wf_tags _ _ _ W), IT, Ha.
  - intros B a Ha. apply (gd_limit _ _ _ _ G B), IT, Ha.
Qed.

Section Run.
Variables (p : problem) (R : oracle) (fuel : nat).
Hypothesis L : loaded p.
Let s := snd (solve R fuel p).

Lemma run_good t : In t (explored p (s_log s)) -> good_tree p (s_heap s) t.
Proof. intros I. pose proof (iv_good _ _ _ _ _ _ _ _ (proj1 (run_inv p R fuel L))) as G. rewrite Forall_forall in G. apply G, I. Qed.
Lemma run_event e : In e (s_log s) -> event_ok p (s_heap s) e.
Proof. intros I. pose proof (iv_log _ _ _ _ _ _ _ _ (proj1 (run_inv p R fuel L))) as G. rewrite Forall_forall in G. apply G, I. Qed.
Lemma chained_from : forall log e, chained p log -> In e log -> exists l1 l2, log = l1 ++ e :: l2 /\ In (ev_from e) (explored p l2).
Proof.
  induction log as [|y l IH]; intros x Hc Hx; [destruct Hx|]. destruct Hc as [Hc1 Hc2]. destruct Hx as [->|Hx].
  - exists [], l. auto.
  - destruct (IH x Hc2 Hx) as (l1 & l2 & -> & Hf). exists (y :: l1), l2. auto.
Qed.
Lemma run_from e : In e (s_log s) -> In (ev_from e) (explored p (s_log s)).
Proof.
  intros I. destruct (chained_from _ e (iv_chained _ _ _ _ _ _ _ _ (proj1 (run_inv p R fuel L))) I) as (l1 & l2 & E & H).
  fold s in E. rewrite E, explored_app. apply in_or_app. right. right. exact H.
Qed.
Lemma run_to e : In e (s_log s) -> In (ev_to e) (explored p (s_log s)).
Proof. intros I. apply in_or_app. left. apply in_map, I. Qed.

(** ** histories *)
Lemma run_history t : In t (explored p (s_log s)) -> exists configs costs, history p (s_log s) t configs costs.
Proof.
  assert (H : forall log, (forall e, In e log -> In e (s_log s)) -> chained p log -> forall t, In t (explored p log) ->
    exists configs costs, history p (s_log s) t configs costs).
  { induction log as [|e log IH]; intros SUB CH u Hu.
    - destruct Hu as [<-|[]]. eexists. eexists. apply hist_start.
    - destruct CH as [C1 C2]. assert (S2 : forall x, In x log -> In x (s_log s)) by (intros x Hx; apply SUB; right; exact Hx).
      destruct Hu as [<-|Hu]; [|apply IH; assumption].
      destruct (IH S2 C2 (ev_from e) C1) as (cf & cs & HH). eexists. eexists. apply hist_step; [apply SUB; left; reflexivity|exact HH]. }
  apply H; [auto|]. apply (iv_chained _ _ _ _ _ _ _ _ (proj1 (run_inv p R fuel L))).
Qed.

Lemma history_facts t configs costs : history p (s_log s) t configs costs ->
  In t (explored p (s_log s)) /\
  configs = fl_items (t_past t) ++ [t_source_values t] /\ NoDup configs /\
  t_size t = zsum costs /\ Forall (fun c => 1 <= c) costs /\ length configs = S (length costs).
Proof.
  induction 1 as [|e configs costs He HH IH].
  - split; [apply in_or_app; right; left; reflexivity|]. split; [reflexivity|]. split; [repeat constructor; intros []|].
    split; [reflexivity|]. split; [constructor|reflexivity].
  - destruct IH as (IF & EC & ND & SZ & CP & LN). pose proof (run_event e He) as V. destruct (run_good _ (run_from e He)) as [N G].
    pose proof (gd_wf _ _ _ _ G) as W.
    assert (CW : 1 <= ev_cost e) by (apply (priced_pos _ _ N _ _ W (eo_sensible _ _ _ V) (eo_priced _ _ _ V))).
    assert (NP : ~ In (t_source_values (ev_from e)) (fl_items (t_past (ev_from e)))).
    { rewrite EC in ND. apply NoDup_remove in ND. rewrite app_nil_r in ND. apply ND. }
    assert (EP : fl_items (t_past (ev_to e)) = configs).
    { rewrite (eo_past _ _ _ V). destruct (fl_append_spec tuple_eqb tuple_Z_decides (t_source_values (ev_from e)) _ (wf_tpast _ _ _ W)) as [_ E].
      rewrite E, EC. unfold ref_append. destruct (existsb _ _) eqn:EX; [|reflexivity]. exfalso. apply NP.
      apply (existsb_eqb tuple_eqb tuple_Z_decides). exact EX. }
    assert (ND' : NoDup (configs ++ [t_source_values (ev_to e)])).
    { apply nodup_snoc; [exact ND|]. rewrite EC. intros I. apply in_app_or in I. destruct I as [I|[I|[]]].
      - rewrite (eo_predicted _ _ _ V) in I. apply (eo_new _ _ _ V I).
      - pose proof (eo_flow _ _ _ V) as P. rewrite <- I in P. apply Permutation_app_inv_l, Permutation_length in P.
        destruct (given_facts _ _ N _ W (eo_sensible _ _ _ V)) as (_ & _ & D & _). congruence. }
    split; [apply run_to, He|]. split; [rewrite EP; reflexivity|]. split; [exact ND'|].
    split; [rewrite (eo_size _ _ _ V), SZ, zsum_app, zsum_cons, zsum_nil; lia|].
    split; [apply Forall_app; split; [exact CP|]; constructor; [exact CW|constructor]|]. rewrite !app_length, LN. cbn. lia.
Qed.
End Run.

(** ** more fuel continues the same run *)
Lemma solve_loop_more p (F : loaded_facts p) R f k : forall s, Inv p s ->
  later (snd (solve_loop R p f s)) (snd (solve_loop R p (f + k) s)).
Proof.
  set (K := (3 * total p + 2 ^ total p * total p)%nat). assert (HK : (3 * total p + 2 ^ total p * total p <= K)%nat) by apply le_n.
  induction f as [|f IH]; intros s I.
  - cbn [solve_loop Nat.add]. unfold raise. cbn [snd]. pose proof (solve_loop_ok p F K R HK k s I) as H. unfold wp in H.
    destruct (solve_loop R p k s) as [[u|e] s']; [apply H|]. destruct H as (_ & H & _). exact H.
  - cbn [Nat.add solve_loop]. unfold mbind, read_solving, gets, ret. set (s1 := with_counters _ _ _ _ s). assert (I1 : Inv p s1) by exact I.
    destruct (negb (negb (s_forced_stop s) && _)); [apply later_refl|].
    destruct (s_queue s1) as [|e0 q0] eqn:EQ; [apply later_refl|]. assert (NE : s_queue s1 <> []) by congruence.
    destruct (dequeue_cases R s1 NE) as [(r & E & NN)|(r & c & n & x & E & EN & _)]; rewrite E; [apply later_refl|].
    set (s2 := with_counters r _ c _ _). destruct x as [t sc].
    assert (I2 : Inv p s2).
    { unfold Inv. cbn [s2 with_counters with_queue s_heap s_queue s_best_size s_solutions s_solutions_count s_forced_stop s_log].
      apply (queue_sub p _ (s_queue s1)); [|apply (sorted_pop _ n _ _ EN), (iv_sorted _ _ _ _ _ _ _ _ I1)|exact I1].
      intros e. rewrite (pop_split _ _ _ EN) at 3. rewrite !in_app_iff. cbn [In]. tauto. }
    assert (It : In t (explored p (s_log s2))).
    { pose proof (iv_queue _ _ _ _ _ _ _ _ I1) as QU. rewrite Forall_forall in QU. apply (QU (t, sc)). apply (nth_error_In _ _ EN). }
    pose proof (explore_ok p F K R t HK s2 I2 It) as EX. unfold wp in EX.
    destruct (explore R p t s2) as [[go|e] s3]; [|contradiction]. destruct EX as (I3 & _ & _).
    destruct go; [apply IH, I3|apply later_refl].
Qed.
Lemma solve_more p R f g : loaded p -> (f <= g)%nat -> later (snd (solve R f p)) (snd (solve R g p)).
Proof.
  intros L LE. pose proof (loaded_ok p L) as F. unfold solve, mbind.
  pose proof (enqueue_ok p O R (snd (initial_tree p)) (initial_state p) (initial_inv p F)) as EN. unfold wp in EN.
  destruct (enqueue R p (snd (initial_tree p)) (initial_state p)) as [[u|e] s1]; [|apply later_refl].
  destruct EN as (I1 & _); [left; reflexivity|constructor|apply (lf_initial p F)|].
  replace g with (f + (g - f))%nat by lia. apply solve_loop_more; assumption.
Qed.

(** ** copies *)
Lemma deepcopy_faithful p h t : good_tree p h t -> exists h' t' C, tree_deepcopy h t = Ok (h', t') /\ faithful_copy h t h' t' C.
Proof.
  intros [N G]. pose proof (gd_wf _ _ _ _ G) as W. destruct (tree_deepcopy_ok h t N W) as (h' & t' & C & E & CR).
  exists h', t', C. split; [exact E|].
  assert (IT : forall a, in_tree h t a <-> N a) by (intros a; apply (wf_in_tree h t N a W)).
  assert (NS : t_n_sources t' = Z.of_nat (length (t_roots t'))).
  { unfold tree_deepcopy in E. destruct (copy_roots (t_roots t) [] h) as [[copied h1]|]; [|discriminate]. cbn [bind] in E.
    destruct (look_all copied (t_roots t)) as [roots|]; [|discriminate]. cbn [bind] in E. unfold tree_new in E.
    destruct (look_all copied (t_sources t)) as [srcs|]; [|discriminate]. cbn [bind] in E.
    destruct (map_res (look_all copied) (t_levels t)) as [lv|]; [|discriminate]. cbn [bind] in E. injection E as <- <-. reflexivity. }
  pose proof (cr_data _ _ _ _ _ _ CR) as D. destruct CR. constructor; auto.
  - intros a La. apply extends_get; assumption.
  - intros a Ha. apply cr_new, IT, Ha.
  - intros a b Ha Hb. apply cr_inj; apply IT; assumption.
  - intros c. rewrite (wf_in_tree _ _ _ c cr_wf). split; intros (a & Ha & Ec); exists a; (split; [apply IT, Ha|exact Ec]).
  - intros a Ha. apply (D a), IT, Ha.
  - intros a Ha. apply (D a), IT, Ha.
  - intros a Ha. apply (D a), IT, Ha.
  - intros a Ha Hn. destruct (D a) as (_ & _ & _ & E2); [apply IT, Ha|]. rewrite E2. destruct (existsb (Nat.eqb a) (t_roots t)) eqn:EX; [|reflexivity].
    exfalso. apply Hn. apply existsb_exists in EX. destruct EX as (x & Hx & Ex). apply Nat.eqb_eq in Ex. subst. exact Hx.
  - intros a Ha. destruct (D a) as (_ & _ & _ & E2); [apply (wf_roots _ _ _ W), Ha|]. rewrite E2.
    replace (existsb (Nat.eqb a) (t_roots t)) with true; [reflexivity|]. symmetry. apply existsb_exists. exists a. split; [exact Ha|apply Nat.eqb_refl].
  - intros a Ha. apply cr_children, IT, Ha.
  - intros a Ha. apply cr_parents, IT, Ha.
  - rewrite NS, cr_roots, map_length. reflexivity.
Qed.

(** ** what purging discards *)
Lemma apply_op_size h t o cost h' t' : apply_op h t o cost = Ok (h', t') -> t_size t' = t_size t + cost.
Proof.
  unfold apply_op. destruct (tree_deepcopy h t) as [[h1 tc]|] eqn:EC; [|discriminate]. cbn [bind].
  assert (SC : t_size tc = t_size t).
  { unfold tree_deepcopy in EC. destruct (copy_roots (t_roots t) [] h) as [[copied h2]|]; [|discriminate]. cbn [bind] in EC.
    destruct (look_all copied (t_roots t)) as [roots|]; [|discriminate]. cbn [bind] in EC. unfold tree_new in EC.
    destruct (look_all copied (t_sources t)) as [srcs|]; [|discriminate]. cbn [bind] in EC.
    destruct (map_res (look_all copied) (t_levels t)) as [lv|]; [|discriminate]. cbn [bind] in EC. injection EC as <- <-. reflexivity. }
  destruct (perform h1 tc o) as [[h2 nodes]|]; [|discriminate]. cbn [bind]. unfold tree_add. destruct nodes; [discriminate|].
  intros [= <- <-]. cbn [t_size]. lia.
Qed.
Lemma priced_positive h t o cost : sensible h t o -> priced h t o cost -> Forall (fun v => 0 < v) (taken h t o) -> 1 <= cost.
Proof.
  intros S P V. destruct o as [i c|i d|i c|is].
  - cbn [sensible priced] in *. destruct (extract_cost_pos (zsum (taken h t (OExtract i c))) c) as (r & E & L); try lia.
    rewrite E in P. injection P as <-. exact L.
  - rewrite one_taken in V by exact I. apply Forall_inv in V. cbn [sensible priced] in *. destruct S as (_ & D & DV).
    pose proof (Z.divide_pos_le _ _ V DV).
    destruct (divide_cost_pos (zsum (taken h t (ODivide i d))) d) as (r & E & L); try lia; try assumption.
    rewrite E in P. injection P as <-. exact L.
  - cbn in P. lia.
  - cbn [sensible priced] in *. subst cost. apply c05_merge_cost_positive_lemma. lia.
Qed.
Lemma leads_size h t h' t' : leads h t h' t' -> t_size t <= t_size t' /\ (t' = t \/ t_size t < t_size t').
Proof.
  induction 1 as [|h1 t1 o cost h2 t2 L IH S P V E]; [split; [lia|left; reflexivity]|].
  pose proof (apply_op_size _ _ _ _ _ _ E). pose proof (priced_positive _ _ _ _ S P V). lia.
Qed.

Lemma purge_spec R s : exists s', purge_queue R s = (Ok tt, s') /\
  (forall x, In x (s_queue s') -> In x (s_queue s)) /\
  (forall x, In x (s_queue s) -> ~ In x (s_queue s') -> s_best_size s <= t_size (fst x)) /\
  (o_stop R = None -> s_forced_stop s = false -> s_queue s' = filter (fun x => t_size (fst x) <? s_best_size s) (s_queue s)).
Proof.
  unfold purge_queue, mbind, gets. destruct (purge_loop_spec R (length (s_queue s)) s) as (j & r & E & Lj & Z0); [lia|].
  rewrite E. eexists. split; [reflexivity|]. cbn [with_counters with_queue s_queue].
  pose proof (purge_split j (length (s_queue s)) (s_queue s) Lj) as SP.
  set (A := firstn j (s_queue s)) in *. set (B := skipn j (firstn (length (s_queue s)) (s_queue s))) in *. set (C := skipn (length (s_queue s)) (s_queue s)) in *.
  split; [|split].
  - intros x. rewrite SP, !in_app_iff, filter_In. tauto.
  - intros x. rewrite SP, !in_app_iff, filter_In. unfold keep. intros I N. destruct (Z.geb_spec (t_size (fst x)) (s_best_size s)); [assumption|].
    exfalso. apply N. destruct I as [I|[I|I]]; auto.
  - intros E1 E2. specialize (Z0 E1 E2). subst A B C. rewrite Z0. cbn [firstn skipn app]. rewrite firstn_all, skipn_all, app_nil_r.
    apply filter_ext. intros x. unfold keep. rewrite Z.geb_leb, Z.ltb_antisym. reflexivity.
Qed.

(** ** dequeue *)
Lemma dequeue_spec : forall R s, s_queue s <> [] ->
  s_forced_stop s = false -> (forall k, o_stop R = Some k -> (s_reads s < k)%nat) ->
  StronglySorted queue_order (s_queue s) ->
  exists x s', dequeue R s = (Ok (Some x), s') /\ Permutation (s_queue s) (x :: s_queue s') /\
    StronglySorted queue_order (s_queue s') /\
    (0 < s_solutions_count s -> Forall (fun y => queue_order y x) (s_queue s')).
Proof.
  intros R s NE NF NS SO. destruct (dequeue_cases R s NE) as [(r & _ & NN)|(r & c & k & x & E & EN & LAST)]; [exfalso; apply NN; auto|].
  eexists x, _. split; [exact E|]. cbn [with_counters with_queue s_queue]. pose proof (pop_split _ _ _ EN) as SP.
  split; [rewrite SP at 1; symmetry; apply Permutation_middle|]. split; [apply (sorted_pop _ k _ x EN SO)|].
  intros C. specialize (LAST ltac:(lia)). assert (Lk : (k < length (s_queue s))%nat) by (apply nth_error_Some; congruence).
  rewrite (skipn_all2 (n := S k)) by lia. rewrite app_nil_r. rewrite (skipn_all2 (n := S k)) in SP by lia.
  rewrite SP in SO. clear - SO. induction (firstn k (s_queue s)) as [|y l IH]; [constructor|].
  inversion SO; subst. constructor; [|apply IH; assumption]. rewrite Forall_forall in H2. apply H2, in_or_app. right. left. reflexivity.
Qed.

Lemma ordpairs_nth {A} (P : A -> A -> Prop) l : ForallOrdPairs P l -> forall i j x y, (i < j)%nat ->
  nth_error l i = Some x -> nth_error l j = Some y -> P x y.
Proof.
  induction 1 as [|a l F O IH]; intros i j x y LT Hi Hj; [destruct i; discriminate|].
  destruct j as [|j]; [lia|]. cbn in Hj. destruct i as [|i].
  - injection Hi as <-. rewrite Forall_forall in F. apply F, (nth_error_In _ _ Hj).
  - apply (IH i j); auto; lia.
Qed.
Lemma run_apart : forall p R fuel i j t u, loaded p ->
  let s := snd (solve R fuel p) in
  nth_error (explored p (s_log s)) i = Some t -> nth_error (explored p (s_log s)) j = Some u -> i <> j ->
  apart (s_heap s) t u.
Proof.
  intros p R fuel i j t u L s Hi Hj D. pose proof (iv_apart _ _ _ _ _ _ _ _ (proj1 (run_inv p R fuel L))) as A.
  destruct (Nat.lt_total i j) as [LT|[E|LT]]; [|contradiction|].
  - apply (ordpairs_nth _ _ A i j); assumption.
  - intros a Ha Hb. apply (ordpairs_nth _ _ A j i u t LT Hj Hi a); assumption.
Qed.

(** ** repeated solutions *)
Lemma any_same_true R u sols : forall s s', any_same R u sols s = (Ok true, s') -> exists k t, In t sols /\ o_same R k (s_heap s) t u = true.
Proof.
  induction sols as [|t sols IH]; intros s s' E; [discriminate|]. cbn [any_same] in E. unfold mbind, gets, modify in E.
  destruct (o_same R (s_sames s) (s_heap s) t u) eqn:ES; [exists (s_sames s), t; split; [left; reflexivity|exact ES]|].
  destruct (IH _ _ E) as (k & t' & Hk & Ek). exists k, t'. split; [right; exact Hk|exact Ek].
Qed.
Lemma solution_kept R t s r s' : solution_found R t s = (Ok r, s') -> s_solutions_count s = Z.of_nat (length (s_solutions s)) ->
  t_size t <= s_best_size s ->
  (In t (s_solutions s') /\ s_best_size s' = t_size t) \/
  (s_best_size s' = t_size t /\ s_solutions s' = s_solutions s /\
   exists k u, In u (s_solutions s) /\ o_same R k (s_heap s) u t = true).
Proof.
  unfold solution_found, mbind, gets, modify, ret. intros E C B.
  destruct ((s_solutions_count s =? 0) || (t_size t <? s_best_size s)) eqn:EC.
  - injection E as <- <-. left. cbn. auto.
  - destruct (t_size t =? s_best_size s) eqn:EB; [|apply orb_false_iff in EC; destruct EC as [_ EC]; apply Z.ltb_ge in EC; apply Z.eqb_neq in EB; lia].
    apply Z.eqb_eq in EB. pose proof (any_same_ok R t (s_solutions s) s) as (b & k & EA). rewrite EA in E. destruct b.
    + injection E as <- <-. right. cbn. split; [congruence|]. split; [reflexivity|]. apply (any_same_true R _ _ _ _ EA).
    + injection E as <- <-. left. cbn. split; [apply in_or_app; right; left; reflexivity|congruence].
Qed.

(** ** belt speeds *)
Lemma unit_pos p : loaded p -> 1 <= p_unit_flow_ratio p.
Proof.
  intros (ss & ts & P1 & P2 & E). destruct (load_reduced ss ts p P1 P2 E) as [(es & et & co & fs & ft & _ & _ & _ & _ & U & _) _]. lia.
Qed.

(** ** an untagged two-way split *)
Lemma untagged_extraction h a : tagged h a -> n_expands (get h a) = [] -> length (children h a) = 2%nat -> NoDup (map (value h) (children h a)) ->
  exists c, In c (children h a) /\ In (value h c) [60; 120; 270; 480; 780; 1200].
Proof.
  intros (own & E & S & _) EN L2 ND. rewrite EN in E. symmetry in E. apply app_eq_nil in E. destruct E as [_ ->].
  specialize (S ltac:(lia)).
  assert (LV : length (map (value h) (children h a)) = 2%nat) by (rewrite map_length; exact L2).
  remember (@nil tag) as o eqn:EO. destruct S as [c B1 B2 P|d q D V EV|c q I EC B P].
  - destruct (zmem c [60; 120; 270; 480; 780; 1200]) eqn:Z; [|discriminate]. apply zmem_in in Z.
    assert (Ic : In c (map (value h) (children h a))) by (rewrite P; left; reflexivity).
    apply in_map_iff in Ic. destruct Ic as (x & <- & Hx). exists x. auto.
  - exfalso. rewrite EV in ND, LV. rewrite repeat_length in LV. rewrite LV in ND. cbn in ND. inversion ND; subst. apply H1. left. reflexivity.
  - discriminate.
Qed.

Lemma c20_steps_conserve_flow_lemma : forall p R fuel e, loaded p ->
  let s := snd (solve R fuel p) in
  let h := s_heap s in
  In e (s_log s) ->
  In (ev_from e) (explored p (s_log s)) /\
  sensible h (ev_from e) (ev_op e) /\ priced h (ev_from e) (ev_op e) (ev_cost e) /\
  t_source_values (ev_to e) = ev_sim e /\ StronglySorted Z.le (ev_sim e) /\
  Permutation (t_source_values (ev_to e) ++ taken h (ev_from e) (ev_op e))
              (t_source_values (ev_from e) ++ given h (ev_from e) (ev_op e)) /\
  zsum (given h (ev_from e) (ev_op e)) = zsum (taken h (ev_from e) (ev_op e)) /\
  zsum (t_source_values (ev_to e)) = zsum (t_source_values (ev_from e)).
Proof.
  intros p R fuel e L s h He. pose proof (run_event p R fuel L e He) as V. pose proof (run_from p R fuel L e He) as IF.
  destruct (run_good p R fuel L _ IF) as [N G]. destruct (run_good p R fuel L _ (run_to p R fuel e He)) as [N' G'].
  pose proof (eo_sensible _ _ _ V) as S. pose proof (eo_flow _ _ _ V) as P.
  destruct (given_facts _ _ N _ (gd_wf _ _ _ _ G) S) as (GT & _).
  split; [exact IF|]. split; [exact S|]. split; [apply (eo_priced _ _ _ V)|]. split; [apply (eo_predicted _ _ _ V)|].
  split; [rewrite <- (eo_predicted _ _ _ V); apply (wf_sorted _ _ _ (gd_wf _ _ _ _ G'))|]. split; [exact P|]. split; [exact GT|].
  apply zsum_perm in P. rewrite !zsum_app in P. subst s h. lia.
Qed.

Lemma c21_explored_trees_are_networks_lemma : forall p R fuel t, loaded p ->
  let s := snd (solve R fuel p) in
  In t (explored p (s_log s)) -> network (s_heap s) t (p_sources p).
Proof. intros p R fuel t L s I. apply (good_network p (s_heap s) t (run_good p R fuel L t I)). Qed.

Lemma c21_known_trees_are_explored_lemma : forall p R fuel, loaded p ->
  let s := snd (solve R fuel p) in
  (forall x, In x (s_queue s) -> In (fst x) (explored p (s_log s))) /\
  (forall t, In t (s_solutions s) -> In t (explored p (s_log s))).
Proof.
  intros p R fuel L s. destruct (run_inv p R fuel L) as [I _]. split.
  - intros x Hx. pose proof (iv_queue _ _ _ _ _ _ _ _ I) as Q. rewrite Forall_forall in Q. apply (Q x Hx).
  - intros t Ht. pose proof (iv_sols _ _ _ _ _ _ _ _ I) as Q. rewrite Forall_forall in Q. apply (Q t Ht).
Qed.

Lemma c22_solutions_deliver_targets_lemma : forall p R fuel t, loaded p ->
  let s := snd (solve R fuel p) in
  In t (s_solutions s) ->
  map (value (s_heap s)) (t_sources t) = p_targets p /\ network (s_heap s) t (p_sources p).
Proof.
  intros p R fuel t L s I. pose proof (iv_sols _ _ _ _ _ _ _ _ (proj1 (run_inv p R fuel L))) as Q. rewrite Forall_forall in Q.
  destruct (Q t I) as (IE & ET & _). pose proof (proj1 (good_network p (s_heap s) t (run_good p R fuel L t IE))) as N. split; [|exact N].
  rewrite <- (net_open_values _ _ _ N). exact ET.
Qed.

Lemma c23_solutions_have_best_size_lemma : forall p R fuel, loaded p ->
  let s := snd (solve R fuel p) in
  Forall (fun t => t_size t = s_best_size s) (s_solutions s) /\
  s_solutions_count s = Z.of_nat (length (s_solutions s)) /\
  s_forced_stop s = false /\
  s_best_size s <= p_initial_best_size p.
Proof.
  intros p R fuel L s. pose proof (proj1 (run_inv p R fuel L)) as I. split; [|split; [|split]].
  - eapply Forall_impl; [|apply (iv_sols _ _ _ _ _ _ _ _ I)]. intros t H. apply H.
  - apply (iv_count _ _ _ _ _ _ _ _ I).
  - apply (iv_forced _ _ _ _ _ _ _ _ I).
  - apply (iv_best _ _ _ _ _ _ _ _ I).
Qed.

Lemma c23_best_size_never_increases_lemma : forall p R f g, loaded p -> (f <= g)%nat ->
  let s := snd (solve R f p) in
  let s' := snd (solve R g p) in
  s_best_size s' <= s_best_size s /\
  (exists l, s_log s' = l ++ s_log s) /\
  (forall a, (a < length (s_heap s))%nat -> get (s_heap s') a = get (s_heap s) a).
Proof.
  intros p R f g L LE s s'. destruct (solve_more p R f g L LE) as [H [l E] B]. split; [exact B|]. split; [exists l; exact E|].
  intros a La. apply extends_get; assumption.
Qed.

Lemma c24_size_is_total_cost_lemma : forall p R fuel t, loaded p ->
  let log := s_log (snd (solve R fuel p)) in
  (In t (explored p log) -> exists configs costs, history p log t configs costs) /\
  (forall configs costs, history p log t configs costs ->
     t_size t = zsum costs /\ Forall (fun c => 1 <= c) costs /\ Z.of_nat (length costs) <= t_size t).
Proof.
  intros p R fuel t L log. split; [apply run_history, L|]. intros configs costs H.
  destruct (history_facts p R fuel L t configs costs H) as (_ & _ & _ & SZ & CP & _). split; [exact SZ|]. split; [exact CP|]. rewrite SZ.
  clear - CP. induction CP; [cbn; lia|]. rewrite zsum_cons. cbn [length]. lia.
Qed.

Lemma c27_no_configuration_revisited_lemma : forall p R fuel t configs costs, loaded p ->
  let log := s_log (snd (solve R fuel p)) in
  history p log t configs costs ->
  NoDup configs /\ last configs [] = t_source_values t /\ length configs = S (length costs).
Proof.
  intros p R fuel t configs costs L log H. destruct (history_facts p R fuel L t configs costs H) as (_ & E & ND & _ & _ & LN).
  split; [exact ND|]. split; [rewrite E; apply last_last|exact LN].
Qed.

Lemma c25_solve_terminates_lemma : forall p, loaded p ->
  exists fuel, forall R, o_stop R = None -> exists s, solve R fuel p = (Ok tt, s).
Proof.
  intros p L. set (K := (3 * total p + 2 ^ total p * total p)%nat). exists (S (S K ^ Z.to_nat (p_initial_best_size p))). intros R NS.
  pose proof (solve_ok p (loaded_ok p L) R (S (S K ^ Z.to_nat (p_initial_best_size p))) K (le_n _)) as H.
  destruct (solve R _ p) as [[[]|e] s]; [exists s; reflexivity|]. exfalso. destruct H as (_ & _ & [[_ H]|[_ H]]); [contradiction|lia].
Qed.

Lemma c51_solve_raises_only_when_stopped_lemma : forall p, loaded p ->
  (forall R fuel e, fst (solve R fuel p) = Err e -> e = OutOfFuel \/ (e = TypeError /\ o_stop R <> None)) /\
  (exists bound, forall R fuel, (bound <= fuel)%nat -> fst (solve R fuel p) <> Err OutOfFuel).
Proof.
  intros p L. set (K := (3 * total p + 2 ^ total p * total p)%nat). split.
  - intros R fuel e E. pose proof (solve_ok p (loaded_ok p L) R fuel K (le_n _)) as H.
    destruct (solve R fuel p) as [[u|e'] s]; cbn [fst] in E; [discriminate|]. injection E as ->. destruct H as (_ & _ & [H|[H _]]); auto.
  - exists (S (S K ^ Z.to_nat (p_initial_best_size p))). intros R fuel LE E.
    pose proof (solve_ok p (loaded_ok p L) R fuel K (le_n _)) as H.
    destruct (solve R fuel p) as [[u|e'] s]; cbn [fst] in E; [discriminate|]. injection E as ->.
    destruct H as (_ & _ & [[H _]|[_ H]]); [discriminate|lia].
Qed.

Lemma c26_purge_loses_no_solution_lemma : forall R s r s' p x h u,
  purge_queue R s = (r, s') ->
  In x (s_queue s) -> ~ In x (s_queue s') ->
  t_source_values (fst x) <> p_targets p ->
  leads (s_heap s) (fst x) h u -> t_source_values u = p_targets p ->
  s_best_size s < t_size u.
Proof.
  intros R s r s' p x h u E I NI NS LD SU. destruct (purge_spec R s) as (s2 & E2 & _ & D & _). rewrite E in E2. injection E2 as -> <-.
  specialize (D x I NI). destruct (leads_size _ _ _ _ LD) as [_ [->|LT]]; [contradiction|lia].
Qed.

Lemma c26_queue_holds_no_solution_lemma : forall p R fuel x, loaded p ->
  In x (s_queue (snd (solve R fuel p))) -> t_source_values (fst x) <> p_targets p.
Proof.
  intros p R fuel x L I. pose proof (iv_queue _ _ _ _ _ _ _ _ (proj1 (run_inv p R fuel L))) as Q. rewrite Forall_forall in Q. apply (Q x I).
Qed.

Lemma c26_purge_is_exact_lemma : forall R s, o_stop R = None -> s_forced_stop s = false ->
  exists s', purge_queue R s = (Ok tt, s') /\
    s_queue s' = filter (fun x => t_size (fst x) <? s_best_size s) (s_queue s).
Proof.
  intros R s NS NF. destruct (purge_spec R s) as (s' & E & _ & _ & H). exists s'. auto.
Qed.

Lemma c28_belts_within_limit_lemma : forall p R fuel, loaded p ->
  let s := snd (solve R fuel p) in
  (Forall (fun v => v <= 1200) (p_sources p) ->
   forall t a, In t (explored p (s_log s)) -> in_tree (s_heap s) t a -> value (s_heap s) a <= 1200) /\
  (forall e is, In e (s_log s) -> ev_op e = OMerge is -> zsum (taken (s_heap s) (ev_from e) (ev_op e)) <= 1200).
Proof.
  intros p R fuel L s. split.
  - intros B t a I. apply (good_network p (s_heap s) t (run_good p R fuel L t I)), B.
  - intros e is I. apply (eo_limit _ _ _ (run_event p R fuel L e I)).
Qed.

Lemma c29_needed_values_are_kept_lemma : forall p R fuel e v, loaded p ->
  let s := snd (solve R fuel p) in
  In e (s_log s) -> In v (taken (s_heap s) (ev_from e) (ev_op e)) ->
  (occurrences v (p_targets p) < occurrences v (t_source_values (ev_from e)))%nat.
Proof. intros p R fuel e v L s I. apply (eo_spare _ _ _ (run_event p R fuel L e I)). Qed.

Lemma c30_ancestor_values_avoided_partial_lemma : forall p R fuel e a v, loaded p ->
  let s := snd (solve R fuel p) in
  let h := s_heap s in
  In e (s_log s) -> In a (op_nodes (ev_from e) (ev_op e)) -> In v (given h (ev_from e) (ev_op e)) ->
  v <> value h a /\ exists r, In r (t_roots (ev_from e)) /\ below h r a /\ v <> value h r.
Proof.
  intros p R fuel e a v L s h I Ia Iv. pose proof (run_event p R fuel L e I) as V. pose proof (eo_avoid _ _ _ V a v Ia Iv) as NI.
  destruct (run_good p R fuel L _ (run_from p R fuel L e I)) as [N G]. pose proof (gd_wf _ _ _ _ G) as W.
  apply (op_nodes_in _ _ _ a (eo_sensible _ _ _ V)), (wf_open _ _ _ W) in Ia. destruct Ia as [Na _].
  destruct (wf_past _ _ _ W a Na) as (_ & I1 & r & Hr & B & I2). split; [intros ->; contradiction|].
  exists r. split; [exact Hr|]. split; [exact B|]. intros ->. contradiction.
Qed.

Lemma c31_deepcopy_is_faithful_lemma : forall p R fuel t, loaded p ->
  let s := snd (solve R fuel p) in
  In t (explored p (s_log s)) ->
  exists h' t' C, tree_deepcopy (s_heap s) t = Ok (h', t') /\ faithful_copy (s_heap s) t h' t' C.
Proof. intros p R fuel t L s I. apply (deepcopy_faithful p), (run_good p R fuel L t I). Qed.

Lemma c32_levels_increase_lemma : forall p R fuel t, loaded p ->
  let s := snd (solve R fuel p) in
  In t (explored p (s_log s)) -> levelled (s_heap s) t.
Proof. intros p R fuel t L s I. apply (good_network p (s_heap s) t (run_good p R fuel L t I)). Qed.

Lemma c50_tags_describe_construction_lemma : forall p R fuel t a, loaded p ->
  let s := snd (solve R fuel p) in
  In t (explored p (s_log s)) -> in_tree (s_heap s) t a -> tagged (s_heap s) a.
Proof. intros p R fuel t a L s I. apply (good_network p (s_heap s) t (run_good p R fuel L t I)). Qed.

Lemma c47_queue_is_sorted_lemma : forall p R fuel, loaded p ->
  StronglySorted queue_order (s_queue (snd (solve R fuel p))).
Proof.
  intros p R fuel L. pose proof (iv_sorted _ _ _ _ _ _ _ _ (proj1 (run_inv p R fuel L))) as S.
  induction S as [|x l S IH F]; [constructor|]. constructor; [exact IH|]. eapply Forall_impl; [|exact F]. intros y E.
  apply entry_le_spec in E. exact E.
Qed.

Lemma c36_unit_independent_partial_lemma : forall p R fuel, loaded p ->
  let s := snd (solve R fuel p) in
  let h := s_heap s in
  (forall e is, In e (s_log s) -> ev_op e = OMerge is ->
     zsum (taken h (ev_from e) (ev_op e)) <= 1200 * p_unit_flow_ratio p) /\
  (p_unit_flow_ratio p = 1 -> forall t a, In t (explored p (s_log s)) -> in_tree h t a ->
     n_expands (get h a) = [] -> length (children h a) = 2%nat -> NoDup (map (value h) (children h a)) ->
     exists c, In c (children h a) /\ exists b, In b [60; 120; 270; 480; 780; 1200] /\ value h c = b * p_unit_flow_ratio p).
Proof.
  intros p R fuel L s h. pose proof (unit_pos p L). split.
  - intros e is I O. pose proof (eo_limit _ _ _ (run_event p R fuel L e I) is O). subst h s. lia.
  - intros U t a I Ia E L2 ND. pose proof (good_network p (s_heap s) t (run_good p R fuel L t I)) as (_ & _ & T & _).
    destruct (untagged_extraction h a (T a Ia) E L2 ND) as (c & Ic & Vc). exists c. split; [exact Ic|]. exists (value h c). split; [exact Vc|lia].
Qed.

Lemma c67_lemma : forall p R fuel, loaded p ->
  let s := snd (solve R fuel p) in
  (forall e i c, In e (s_log s) -> ev_op e = OExtract i c -> 2 * c < zsum (taken (s_heap s) (ev_from e) (ev_op e))) /\
  (forall t a c, In t (explored p (s_log s)) -> in_tree (s_heap s) t a -> In (TExtract c) (n_expands (get (s_heap s) a)) -> 2 * c < value (s_heap s) a).
Proof.
  intros p R fuel L s. split.
  - intros e i c I E. apply (eo_half _ _ _ (run_event p R fuel L e I) i c E).
  - intros t a c _ _ I. apply (iv_half _ _ _ _ _ _ _ _ (proj1 (run_inv p R fuel L)) a c I).
Qed.
