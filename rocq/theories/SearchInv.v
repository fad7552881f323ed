(** The invariant of the search, for every oracle and every amount of fuel. *)
From Verif Require Import Base BaseLemmas Cost CostSpec CostProofs Utils UtilsSpec UtilsProofs Fractions Load LoadSpec LoadProofs Tree TreeSpec
  Search SearchSpec HeapLemmas CopyProofs TreeInv TreeGrow TreeOps Halves SearchGen SearchInit.
From Coq Require Import QArith Qcanon.
Open Scope Z_scope.

(** ** operations and heap extension *)
Lemma op_nodes_in h t o a : sensible h t o -> In a (op_nodes t o) -> In a (t_sources t).
Proof.
  destruct o as [i c|i d|i c|is]; cbn [sensible op_nodes]; intros S I; try (destruct I as [<-|[]]; apply nth_In; tauto).
  apply in_map_iff in I. destruct I as (i & <- & Hi). apply nth_In. apply S, Hi.
Qed.
Lemma source_get h h' t N a : wf h t N -> extends h h' -> In a (t_sources t) -> get h' a = get h a.
Proof. intros W E I. apply extends_get; [exact E|]. apply (wf_bound _ _ _ W), (wf_open _ _ _ W), I. Qed.

Lemma taken_extends h h' t N o : wf h t N -> extends h h' -> sensible h t o -> taken h' t o = taken h t o.
Proof.
  intros W E S. unfold taken. apply map_ext_in. intros a Ha. unfold value. rewrite (source_get h h' t N); auto.
  apply (op_nodes_in h t o a S Ha).
Qed.
Lemma given_extends h h' t N o : wf h t N -> extends h h' -> sensible h t o -> given h' t o = given h t o.
Proof. intros W E S. unfold given. rewrite (taken_extends h h' t N) by assumption. reflexivity. Qed.
Lemma sensible_extends h h' t N o : wf h t N -> extends h h' -> sensible h t o -> sensible h' t o.
Proof. intros W E S. unfold sensible. rewrite (taken_extends h h' t N) by assumption. exact S. Qed.
Lemma priced_extends h h' t N o cost : wf h t N -> extends h h' -> sensible h t o -> priced h t o cost -> priced h' t o cost.
Proof. intros W E S P. unfold priced. rewrite (taken_extends h h' t N) by assumption. exact P. Qed.

Lemma candidate_extends p h h' t N cu sim o cost : wf h t N -> extends h h' ->
  candidate p h t cu sim o cost -> candidate p h' t cu sim o cost.
Proof.
  intros W E C. pose proof (cd_sensible _ _ _ _ _ _ _ C) as S.
  pose proof (taken_extends h h' t N o W E S) as ET. pose proof (given_extends h h' t N o W E S) as EG.
  destruct C. constructor; rewrite ?ET, ?EG; auto.
  - apply (sensible_extends h h' t N); assumption.
  - apply (priced_extends h h' t N); assumption.
  - intros a v Ha Hv. rewrite (source_get h h' t N); auto. apply (op_nodes_in h t o a S Ha).
Qed.

Lemma zsum_in_le v l : (forall x, In x l -> 0 <= x) -> In v l -> v <= zsum l.
Proof.
  induction l as [|y l IH]; intros P I; [destruct I|]. rewrite zsum_cons. assert (0 <= zsum l).
  { clear - P. assert (Q : forall x, In x l -> 0 <= x) by (intros x J; apply P; right; exact J). clear P. induction l as [|z l IH]; [reflexivity|]. rewrite zsum_cons. pose proof (Q z (or_introl eq_refl)). specialize (IH (fun x J => Q x (or_intror J))). lia. }
  destruct I as [->|I]; [lia|]. pose proof (P y (or_introl eq_refl)). specialize (IH (fun x J => P x (or_intror J)) I). lia.
Qed.
Lemma taken_pos h t N o v : wf h t N -> sensible h t o -> In v (taken h t o) -> 0 < v /\ In v (t_source_values t).
Proof.
  intros W S I. unfold taken in I. apply in_map_iff in I. destruct I as (a & <- & Ha). apply (op_nodes_in h t o a S) in Ha.
  split; [apply (wf_pos _ _ _ W), (wf_open _ _ _ W), Ha|]. rewrite (wf_values _ _ _ W). apply in_map, Ha.
Qed.
Lemma one_taken h t o : (match o with OMerge _ => False | _ => True end) -> taken h t o = [zsum (taken h t o)].
Proof. destruct o; cbn; intros H; try contradiction; f_equal; symmetry; apply Z.add_0_r. Qed.

Lemma priced_pos h t N o cost : wf h t N -> sensible h t o -> priced h t o cost -> 1 <= cost.
Proof.
  intros W S P. destruct o as [i c|i d|i c|is].
  - cbn [sensible priced] in *. destruct (extract_cost_pos (zsum (taken h t (OExtract i c))) c) as (r & E & L); try lia.
    rewrite E in P. injection P as <-. exact L.
  - assert (V : 0 < zsum (taken h t (ODivide i d))).
    { apply (taken_pos h t N (ODivide i d) _ W S). rewrite one_taken at 2 by exact I. left. reflexivity. }
    cbn [sensible priced] in *. destruct S as (_ & D & DV). pose proof (Z.divide_pos_le _ _ V DV).
    destruct (divide_cost_pos (zsum (taken h t (ODivide i d))) d) as (r & E & L); try lia; try assumption.
    rewrite E in P. injection P as <-. exact L.
  - cbn in P. lia.
  - cbn [sensible priced] in *. subst cost. apply c05_merge_cost_positive_lemma. lia.
Qed.

(** flows given are positive and total what is taken *)
Lemma given_facts h t N o : wf h t N -> sensible h t o ->
  zsum (given h t o) = zsum (taken h t o) /\ (forall v, In v (given h t o) -> 0 < v) /\
  length (given h t o) <> length (taken h t o) /\
  ((forall is, o <> OMerge is) -> forall v, In v (given h t o) -> v <= zsum (taken h t o)).
Proof.
  intros W S. set (v := zsum (taken h t o)).
  assert (O1 : (match o with OMerge _ => False | _ => True end) -> taken h t o = [v]) by apply one_taken.
  assert (VP : 0 < v).
  { destruct o as [i c|i d|i c|is]; try (apply (taken_pos h t N _ v W S); rewrite O1 by exact I; left; reflexivity).
    assert (P : forall l, (forall x, In x l -> 0 < x) -> l <> [] -> 0 < zsum l).
    { intros l. destruct l as [|x l]; [congruence|]. intros H _. rewrite zsum_cons.
      assert (0 <= zsum l) by (apply zsum_nonneg, Forall_forall; intros y Hy; apply H; right; exact Hy).
      specialize (H x (or_introl eq_refl)). lia. }
    apply P. { intros x Hx. apply (taken_pos h t N _ x W S Hx). }
    cbn [sensible] in S. unfold taken. cbn [op_nodes]. destruct is; [cbn in S; lia|discriminate]. }
  destruct o as [i c|i d|i c|is]; cbn [sensible] in S; unfold given; cbv zeta in *; fold v in S |- *;
    try (rewrite O1 by exact I).
  - split; [rewrite !zsum_cons, !zsum_nil; lia|]. split; [intros x [<-|[<-|[]]]; lia|]. split; [cbn; lia|].
    intros _ x [<-|[<-|[]]]; lia.
  - destruct S as (_ & D & [q E]). assert (Q : v / d = q) by (rewrite E; apply Z.div_mul; lia). rewrite Q.
    assert (QP : 0 < q) by (clearbody v; subst v; nia). split; [rewrite zsum_repeat; lia|]. split; [intros x Hx; apply repeat_spec in Hx; lia|].
    split; [rewrite repeat_length; cbn; lia|]. intros _ x Hx. apply repeat_spec in Hx. subst x. clearbody v. subst v. nia.
  - destruct S as (_ & IC & L1 & L2). split; [rewrite !zsum_cons, !zsum_nil; lia|].
    assert (CP : 0 < c / 3) by (repeat (destruct IC as [<-|IC]; [reflexivity|]); destruct IC).
    assert (0 < c / 3 <= v) by lia.
    split; [intros x [<-|[<-|[<-|[]]]]; lia|]. split; [cbn; lia|]. intros _ x [<-|[<-|[<-|[]]]]; lia.
  - split; [rewrite !zsum_cons, !zsum_nil; lia|]. split; [intros x [<-|[]]; lia|]. split; [|intros H; exfalso; eapply H; reflexivity].
    unfold taken. cbn [op_nodes]. rewrite !map_length. cbn [length]. lia.
Qed.

(** ** sorted queues *)
Lemma entry_le_total a b : entry_le a b = true \/ entry_le b a = true.
Proof.
  unfold entry_le. destruct (Qeq_bool (snd a) (snd b)) eqn:E.
  - apply Qeq_bool_iff in E. assert (E2 : Qeq_bool (snd b) (snd a) = true) by (apply Qeq_bool_iff; symmetry; exact E). rewrite E2.
    destruct (Z.le_ge_cases (t_size (fst a)) (t_size (fst b))); [right|left]; lia.
  - destruct (Qeq_bool (snd b) (snd a)) eqn:E2. { apply Qeq_bool_iff in E2. symmetry in E2. apply Qeq_bool_iff in E2. congruence. }
    rewrite !Qle_bool_iff. destruct (Qlt_le_dec (snd a) (snd b)); [left; apply Qlt_le_weak; assumption|right; assumption].
Qed.
Lemma entry_le_spec a b : entry_le a b = true <->
  (snd a < snd b)%Q \/ ((snd a == snd b)%Q /\ t_size (fst b) <= t_size (fst a)).
Proof.
  unfold entry_le. destruct (Qeq_bool (snd a) (snd b)) eqn:E.
  - apply Qeq_bool_iff in E. rewrite Z.leb_le. split; [intros H; right; split; [exact E|lia]|].
    intros [H|[_ H]]; [rewrite E in H; apply Qlt_irrefl in H; contradiction|lia].
  - assert (NE : ~ (snd a == snd b)%Q) by (intros H; apply Qeq_bool_iff in H; congruence). rewrite Qle_bool_iff. split.
    + intros H. apply Qle_lteq in H. tauto.
    + intros [H|[H _]]; [apply Qlt_le_weak, H|contradiction].
Qed.
Lemma entry_le_trans a b c : entry_le a b = true -> entry_le b c = true -> entry_le a c = true.
Proof.
  rewrite !entry_le_spec. intros [H1|[H1 L1]] [H2|[H2 L2]].
  - left. eapply Qlt_trans; eassumption.
  - left. rewrite <- H2. exact H1.
  - left. rewrite H1. exact H2.
  - right. split; [rewrite H1; exact H2|lia].
Qed.

Lemma sorted_drop {A} (R : A -> A -> Prop) keep a b c : StronglySorted R (a ++ b ++ c) -> StronglySorted R (a ++ filter keep b ++ c).
Proof.
  assert (FB : forall P : A -> Prop, Forall P (a ++ b ++ c) -> Forall P (a ++ filter keep b ++ c)).
  { intros P. rewrite !Forall_app. intros (H1 & H2 & H3). split; [exact H1|]. split; [|exact H3]. rewrite Forall_forall in *.
    intros x Hx. apply filter_In in Hx. apply H2, Hx. }
  revert FB. induction a as [|x a IH]; cbn [app]; intros _ S.
  - induction b as [|y b IHb]; [exact S|]. cbn [app] in S. inversion S; subst. cbn [filter]. destruct (keep y); [|auto].
    cbn [app]. constructor; [auto|]. rewrite Forall_app in *. destruct H2 as [H2 H3]. split; [|exact H3].
    rewrite Forall_forall in *. intros z Hz. apply filter_In in Hz. apply H2, Hz.
  - inversion S; subst. constructor.
    + apply IH; [|assumption]. intros P. rewrite !Forall_app. intros (G1 & G2 & G3). split; [exact G1|]. split; [|exact G3]. rewrite Forall_forall in *.
      intros z Hz. apply filter_In in Hz. apply G2, Hz.
    + rewrite !Forall_app in *. destruct H2 as (G1 & G2 & G3). split; [exact G1|]. split; [|exact G3]. rewrite Forall_forall in *.
      intros z Hz. apply filter_In in Hz. apply G2, Hz.
Qed.

Section Inv.
Variable p : problem.
Hypothesis F : loaded_facts p.
Local Notation t0 := (snd (initial_tree p)).

Record good (h : heap Z) (t : tree Z) (N : nat -> Prop) : Prop := {
  gd_wf : wf h t N;
  gd_roots : map (value h) (t_roots t) = p_sources p;
  gd_count : t_n_sources t = Z.of_nat (length (t_sources t));
  gd_open : forall a, In a (t_sources t) -> level h a = Some (t_current_level t);
  gd_inner : forall a, N a -> ~ In a (t_sources t) -> exists l, level h a = Some l /\ l < t_current_level t;
  gd_total : zsum (t_source_values t) = zsum (p_sources p);
  gd_limit : Forall (fun v => v <= 1200) (p_sources p) -> forall a, N a -> value h a <= 1200;
  gd_bound : forall a, N a -> value h a <= zsum (p_sources p);
  gd_past : forall r v, In r (t_roots t) -> In v (fl_items (n_past (get h r))) -> In v (p_sources p)
}.
Definition good_tree (h : heap Z) (t : tree Z) : Prop := exists N, good h t N.

Lemma good_extends h h' t N : extends h h' -> good h t N -> good h' t N.
Proof.
  intros E G. destruct G as [W R C O I T L Bd Pa].
  assert (EG : forall a, N a -> get h' a = get h a) by (intros a Na; apply extends_get; [exact E|apply (wf_bound _ _ _ W), Na]).
  constructor.
  - apply (wf_extends h h' t N E W).
  - rewrite <- R. apply map_ext_in. intros r Hr. unfold value. rewrite EG; [reflexivity|apply (wf_roots _ _ _ W), Hr].
  - exact C.
  - intros a Ha. unfold level. rewrite EG; [apply O, Ha|apply (wf_open _ _ _ W), Ha].
  - intros a Na Ha. unfold level. rewrite EG by exact Na. apply I; assumption.
  - exact T.
  - intros S a Na. unfold value. rewrite EG by exact Na. apply L; assumption.
  - intros a Na. unfold value. rewrite EG by exact Na. apply Bd, Na.
  - intros r v Hr. rewrite EG by (apply (wf_roots _ _ _ W), Hr). apply Pa, Hr.
Qed.

Record event_ok (h : heap Z) (e : event) : Prop := {
  eo_sensible : sensible h (ev_from e) (ev_op e);
  eo_priced : priced h (ev_from e) (ev_op e) (ev_cost e);
  eo_predicted : t_source_values (ev_to e) = ev_sim e;
  eo_flow : Permutation (t_source_values (ev_to e) ++ taken h (ev_from e) (ev_op e))
                        (t_source_values (ev_from e) ++ given h (ev_from e) (ev_op e));
  eo_size : t_size (ev_to e) = t_size (ev_from e) + ev_cost e;
  eo_past : fl_items (t_past (ev_to e)) = fl_items (fl_append tuple_eqb (t_source_values (ev_from e)) (t_past (ev_from e)));
  eo_limit : forall is, ev_op e = OMerge is -> zsum (taken h (ev_from e) (ev_op e)) <= 1200;
  eo_avoid : forall a v, In a (op_nodes (ev_from e) (ev_op e)) -> In v (given h (ev_from e) (ev_op e)) ->
    ~ In v (fl_items (n_past (get h a)));
  eo_gcd : forall v, In v (given h (ev_from e) (ev_op e)) -> p_gcd p <= v;
  eo_spare : forall v, In v (taken h (ev_from e) (ev_op e)) ->
    (occurrences v (p_targets p) < occurrences v (t_source_values (ev_from e)))%nat;
  eo_new : ~ In (ev_sim e) (fl_items (t_past (ev_from e)));
  eo_bound : t_size (ev_to e) <= p_initial_best_size p;
  eo_half : forall i c, ev_op e = OExtract i c -> 2 * c < zsum (taken h (ev_from e) (ev_op e))
}.

Lemma event_extends h h' e : extends h h' -> good_tree h (ev_from e) -> event_ok h e -> event_ok h' e.
Proof.
  intros E [N G] V. pose proof (gd_wf _ _ _ G) as W. pose proof (eo_sensible _ _ V) as S.
  pose proof (taken_extends h h' _ N _ W E S) as ET. pose proof (given_extends h h' _ N _ W E S) as EG.
  destruct V. constructor; rewrite ?ET, ?EG; auto.
  - apply (sensible_extends h h' _ N); assumption.
  - apply (priced_extends h h' _ N); assumption.
  - intros a v Ha Hv. rewrite (source_get h h' (ev_from e) N); auto. apply (op_nodes_in h _ _ a S Ha).
Qed.

(** what the pasts of the open sources hold after an event *)
Definition pasts_ok (h : heap Z) (e : event) : Prop := forall a v, In a (t_sources (ev_to e)) -> In v (fl_items (n_past (get h a))) ->
  v = value h a \/ In v (p_sources p) \/ In v (taken h (ev_from e) (ev_op e)).
Lemma pasts_extends h h' e : extends h h' -> good_tree h (ev_from e) -> good_tree h (ev_to e) -> sensible h (ev_from e) (ev_op e) ->
  pasts_ok h e -> pasts_ok h' e.
Proof.
  intros E [N G] [N' G'] S P a v Ha Hv. rewrite (taken_extends h h' _ N _ (gd_wf _ _ _ G) E S). unfold value.
  rewrite (source_get h h' _ N' a (gd_wf _ _ _ G') E Ha) in *. apply (P a v Ha Hv).
Qed.

(** the tree an event starts from was built before *)
Fixpoint chained (log : list event) : Prop :=
  match log with
  | [] => True
  | e :: r => In (ev_from e) (explored p r) /\ chained r
  end.

Record inv (h : heap Z) (q : list (tree Z * Q)) (best : Z) (sols : list (tree Z)) (count : Z) (forced : bool) (log : list event) : Prop := {
  iv_good : Forall (good_tree h) (explored p log);
  iv_log : Forall (event_ok h) log;
  iv_chained : chained log;
  iv_apart : ForallOrdPairs (apart h) (explored p log);
  iv_queue : Forall (fun e => In (fst e) (explored p log) /\ t_source_values (fst e) <> p_targets p) q;
  iv_sorted : StronglySorted (fun a b => entry_le a b = true) q;
  iv_sols : Forall (fun t => In t (explored p log) /\ t_source_values t = p_targets p /\ t_size t = best) sols;
  iv_count : count = Z.of_nat (length sols);
  iv_forced : forced = false;
  iv_best : best <= p_initial_best_size p;
  iv_sols_apart : ForallOrdPairs (apart h) sols;
  iv_pasts : Forall (pasts_ok h) log;
  iv_half : halves h
}.
Definition Inv (s : state) : Prop :=
  inv (s_heap s) (s_queue s) (s_best_size s) (s_solutions s) (s_solutions_count s) (s_forced_stop s) (s_log s).

(** progress of a run *)
Record later (s s' : state) : Prop := {
  la_heap : extends (s_heap s) (s_heap s');
  la_log : exists l, s_log s' = l ++ s_log s;
  la_best : s_best_size s' <= s_best_size s
}.
Lemma later_refl s : later s s.
Proof. constructor; [apply extends_refl|exists []; reflexivity|lia]. Qed.
Lemma later_trans a b c : later a b -> later b c -> later a c.
Proof.
  intros [H1 [l1 L1] B1] [H2 [l2 L2] B2]. constructor; [eapply extends_trans; eassumption| |lia].
  exists (l2 ++ l1). rewrite L2, L1. apply app_assoc.
Qed.
Lemma explored_app l log : explored p (l ++ log) = map ev_to l ++ explored p log.
Proof. unfold explored. rewrite map_app, app_assoc. reflexivity. Qed.
Lemma later_explored s s' t : later s s' -> In t (explored p (s_log s)) -> In t (explored p (s_log s')).
Proof. intros [_ [l ->] _] I. rewrite explored_app. apply in_or_app. right. exact I. Qed.

(** ** the initial state *)
Lemma initial_good : good (fst (initial_tree p)) t0 (fun a => (a < length (p_sources p))%nat).
Proof.
  pose proof (initial_wf p F) as W.
  assert (V : forall a, (a < length (p_sources p))%nat -> value (fst (initial_tree p)) a = nth a (p_sources p) 0).
  { intros a L. unfold value. rewrite (initial_get p) by exact L. reflexivity. }
  constructor.
  - exact W.
  - rewrite (initial_roots p). transitivity (map (fun a => nth a (p_sources p) 0) (seq 0 (length (p_sources p)))); [|apply map_nth_seq].
    apply map_ext_in. intros a Ha. apply in_seq in Ha. apply V. lia.
  - reflexivity.
  - intros a Ha. apply (wf_open _ _ _ W) in Ha. destruct Ha as [L _]. unfold level. rewrite (initial_get p) by exact L. reflexivity.
  - intros a L N. exfalso. apply N. change (t_sources t0) with (t_roots t0). rewrite (initial_roots p). apply in_seq. lia.
  - rewrite (initial_values p). reflexivity.
  - intros B a L. rewrite V by exact L. rewrite Forall_forall in B. apply B, nth_In, L.
  - intros a L. rewrite V by exact L. apply zsum_in_le; [|apply nth_In, L]. pose proof (lf_pos p F) as Po. rewrite Forall_forall in Po. intros x J. specialize (Po x J). lia.
  - intros r v Hr. rewrite (initial_roots p) in Hr. apply in_seq in Hr. rewrite (initial_get p) by lia. cbn [n_past].
    intros [<-|[]]. apply nth_In. lia.
Qed.
Lemma initial_inv : Inv (initial_state p).
Proof.
  constructor; cbn [initial_state s_heap s_queue s_best_size s_solutions s_solutions_count s_forced_stop s_log]; try constructor; auto.
  - exists (fun a => (a < length (p_sources p))%nat). apply initial_good.
  - constructor.
  - lia.
  - intros a. destruct (Nat.lt_ge_cases a (length (p_sources p))) as [La|La]; [rewrite (initial_get p) by exact La|rewrite get_past by (rewrite (initial_length p); exact La)]; intros c [].
Qed.

(** ** purging *)
Definition keep (best : Z) (e : tree Z * Q) : bool := negb (t_size (fst e) >=? best).
Lemma firstn_snoc {A} (q : list A) i x : nth_error q i = Some x -> firstn (S i) q = firstn i q ++ [x].
Proof. revert i. induction q as [|y q IH]; intros [|i] E; try discriminate; cbn in *; [congruence|]. f_equal. apply IH, E. Qed.

Lemma purge_loop_spec R : forall i s, (i <= length (s_queue s))%nat ->
  exists j r, purge_loop R i s = (Ok tt, with_counters r (s_scores s) (s_picks s) (s_sames s)
     (with_queue (firstn j (s_queue s) ++ filter (keep (s_best_size s)) (skipn j (firstn i (s_queue s))) ++ skipn i (s_queue s)) s)) /\
    (j <= i)%nat /\ (o_stop R = None -> s_forced_stop s = false -> j = O).
Proof.
  induction i as [|i IH]; intros s L.
  - exists O, (s_reads s). split; [|auto]. cbn. unfold with_counters, with_queue. destruct s. reflexivity.
  - cbn [purge_loop]. unfold mbind at 1, read_solving. set (s1 := with_counters (S (s_reads s)) _ _ _ s).
    set (b := negb (s_forced_stop s) && _). destruct b eqn:EB; cbn [negb].
    2: { exists (S i), (S (s_reads s)). split; [|split; [lia|]].
         - unfold ret. f_equal. unfold s1, with_counters, with_queue. cbn [s_queue s_heap s_best_size s_solutions s_solutions_count s_forced_stop s_log].
           rewrite skipn_all2 by (rewrite firstn_length; lia). cbn [filter app]. rewrite firstn_skipn. reflexivity.
         - intros E1 E2. exfalso. unfold b in EB. rewrite E1, E2 in EB. discriminate. }
    unfold gets. unfold mbind at 1. unfold mbind at 1. change (s_queue s1) with (s_queue s). change (s_best_size s1) with (s_best_size s).
    destruct (nth_error (s_queue s) i) as [[t sc]|] eqn:EN. 2: { apply nth_error_None in EN. lia. }
    assert (LF : length (firstn i (s_queue s)) = i) by (rewrite firstn_length; lia).
    unfold mbind at 1. destruct (t_size t >=? s_best_size s) eqn:ES.
    + unfold modify. set (q1 := firstn i (s_queue s) ++ skipn (S i) (s_queue s)).
      destruct (IH (with_queue q1 s1)) as (j & r & E & Lj & Z0).
      { unfold q1. cbn [with_queue s_queue]. rewrite app_length, LF. lia. }
      exists j, r. rewrite E. cbn [with_queue s_queue s1 with_counters s_best_size s_scores s_picks s_sames s_forced_stop] in *.
      split; [|split; [lia|exact Z0]]. f_equal. unfold with_counters, with_queue. cbn [s_queue s_heap s_best_size s_solutions s_solutions_count s_forced_stop s_log]. f_equal.
      assert (E1 : firstn i q1 = firstn i (s_queue s)) by (unfold q1; rewrite firstn_app, LF, Nat.sub_diag, firstn_O, app_nil_r, firstn_firstn, Nat.min_id; reflexivity).
      assert (E2 : skipn i q1 = skipn (S i) (s_queue s)) by (unfold q1; rewrite skipn_app, LF, Nat.sub_diag, skipn_O, skipn_all2 by lia; reflexivity).
      assert (E3 : firstn j q1 = firstn j (s_queue s)).
      { transitivity (firstn j (firstn i q1)); [rewrite firstn_firstn; f_equal; lia|]. rewrite E1, firstn_firstn. f_equal. lia. }
      rewrite E1, E2, E3. f_equal. f_equal. rewrite (firstn_snoc _ _ _ EN), skipn_app, filter_app, LF.
      replace (j - i)%nat with O by lia. cbn [skipn filter]. unfold keep at 3. cbn [fst]. rewrite ES. cbn [negb]. rewrite app_nil_r. reflexivity.
    + unfold ret. destruct (IH s1) as (j & r & E & Lj & Z0). { cbn. lia. }
      exists j, r. rewrite E. cbn [s1 s_queue with_counters s_best_size s_scores s_picks s_sames s_forced_stop] in *.
      split; [|split; [lia|exact Z0]]. f_equal. unfold with_counters, with_queue. cbn [s_queue s_heap s_best_size s_solutions s_solutions_count s_forced_stop s_log]. f_equal. f_equal.
      rewrite (firstn_snoc _ _ _ EN), skipn_app, filter_app, LF. replace (j - i)%nat with O by lia. cbn [skipn filter]. unfold keep at 3. cbn [fst]. rewrite ES. cbn [negb].
      rewrite <- app_assoc. f_equal. cbn [app]. clear -EN. revert i EN. induction (s_queue s) as [|y q IH]; intros [|i] E; try discriminate; cbn in *; [congruence|auto].
Qed.

Lemma purge_split j i (q : list (tree Z * Q)) : (j <= i)%nat -> q = firstn j q ++ skipn j (firstn i q) ++ skipn i q.
Proof.
  intros L. rewrite app_assoc. replace (firstn j q) with (firstn j (firstn i q)) by (rewrite firstn_firstn; f_equal; lia).
  rewrite !firstn_skipn. reflexivity.
Qed.

(** ** a measure of the work left *)
Section Weight.
Variable K : nat.
Definition entry_weight (e : tree Z * Q) : nat := (S K ^ Z.to_nat (p_initial_best_size p - t_size (fst e)))%nat.
Definition weight (q : list (tree Z * Q)) : nat := list_sum (map entry_weight q).
Lemma weight_app a b : weight (a ++ b) = (weight a + weight b)%nat.
Proof. unfold weight. rewrite map_app. apply list_sum_app. Qed.
Lemma weight_cons e q : weight (e :: q) = (entry_weight e + weight q)%nat.
Proof. reflexivity. Qed.
Lemma weight_perm a b : Permutation a b -> weight a = weight b.
Proof. induction 1; rewrite ?weight_cons; try lia. Qed.
Lemma weight_filter f q : (weight (filter f q) <= weight q)%nat.
Proof. induction q as [|e q IH]; [cbn; lia|]. cbn [filter]. destruct (f e); rewrite ?weight_cons; lia. Qed.

(** ** enqueue *)
Lemma is_solution_iff h t N : wf h t N -> is_solution p h (t_sources t) = true <-> t_source_values t = p_targets p.
Proof.
  intros W. unfold is_solution. change (node_values h (t_sources t)) with (map (value h) (t_sources t)). rewrite <- (wf_values _ _ _ W).
  assert (L : length (t_sources t) = length (t_source_values t)) by (rewrite (wf_values _ _ _ W), map_length; reflexivity).
  rewrite L, andb_true_iff, Nat.eqb_eq. generalize (t_source_values t) (p_targets p). clear.
  induction l as [|x l IH]; intros [|y l']; cbn; try (split; [intros [H _]; discriminate|discriminate]); [tauto|].
  rewrite andb_true_iff, Z.eqb_eq. specialize (IH l'). split.
  - intros (E & -> & H). f_equal. apply IH. auto.
  - intros [= -> ->]. split; [reflexivity|]. split; [reflexivity|]. apply IH. reflexivity.
Qed.

Lemma queue_sub h q q' best sols count forced log :
  (forall e, In e q' -> In e q) -> StronglySorted (fun a b => entry_le a b = true) q' ->
  inv h q best sols count forced log -> inv h q' best sols count forced log.
Proof.
  intros SUB S I. destruct I. constructor; auto. rewrite Forall_forall in *. auto.
Qed.

Lemma purge_ok R s : Inv s -> wp (purge_queue R) (fun _ s' => Inv s' /\ s_log s' = s_log s /\ s_heap s' = s_heap s /\
   s_best_size s' = s_best_size s /\ s_solutions s' = s_solutions s /\ (weight (s_queue s') <= weight (s_queue s))%nat) (fun _ _ => False) s.
Proof.
  intros I. unfold purge_queue. apply wp_bind, wp_gets. unfold wp.
  destruct (purge_loop_spec R (length (s_queue s)) s) as (j & r & E & Lj & _); [lia|]. rewrite E.
  pose proof (purge_split j (length (s_queue s)) (s_queue s) Lj) as SP.
  set (A := firstn j (s_queue s)) in *. set (B := skipn j (firstn (length (s_queue s)) (s_queue s))) in *. set (C := skipn (length (s_queue s)) (s_queue s)) in *.
  split; [|repeat (split; [reflexivity|])].
  - unfold Inv. cbn [with_counters with_queue s_heap s_queue s_best_size s_solutions s_solutions_count s_forced_stop s_log].
    apply (queue_sub _ (s_queue s)); [|apply sorted_drop|exact I].
    + intros e. rewrite SP. rewrite !in_app_iff, filter_In. tauto.
    + rewrite <- SP. apply (iv_sorted _ _ _ _ _ _ _ I).
  - cbn [with_counters with_queue s_queue]. rewrite SP. rewrite !weight_app. pose proof (weight_filter (keep (s_best_size s)) B). lia.
Qed.

Lemma any_same_ok R u sols : forall s, exists b k, any_same R u sols s = (Ok b, with_counters (s_reads s) (s_scores s) (s_picks s) k s).
Proof.
  induction sols as [|t sols IH]; intros s.
  - exists false, (s_sames s). unfold any_same, ret, with_counters. destruct s. reflexivity.
  - cbn [any_same]. unfold mbind, gets, modify. destruct (o_same R (s_sames s) (s_heap s) t u).
    + exists true, (S (s_sames s)). reflexivity.
    + destruct (IH (with_counters (s_reads s) (s_scores s) (s_picks s) (S (s_sames s)) s)) as (b & k & E). exists b, k. rewrite E. reflexivity.
Qed.

Definition step_post (t : tree Z) (s s' : state) : Prop :=
  Inv s' /\ s_log s' = s_log s /\ s_heap s' = s_heap s /\
  s_best_size s' <= s_best_size s /\ (s_best_size s' = s_best_size s \/ s_best_size s' = t_size t) /\
  (weight (s_queue s') <= weight (s_queue s) + S K ^ Z.to_nat (p_initial_best_size p - t_size t))%nat.

Lemma ordpairs_snoc {A} (P : A -> A -> Prop) l x : ForallOrdPairs P l -> Forall (fun y => P y x) l -> ForallOrdPairs P (l ++ [x]).
Proof.
  induction 1 as [|y l H _ IH]; intros F0; [repeat constructor|]. inversion F0; subst. cbn. constructor; [|auto]. apply Forall_app. auto.
Qed.
Lemma enqueue_ok R t s : Inv s -> In t (explored p (s_log s)) -> Forall (fun u => apart (s_heap s) u t) (s_solutions s) -> t_size t <= s_best_size s ->
  wp (enqueue R p t) (fun _ s' => step_post t s s') (fun _ _ => False) s.
Proof.
  intros I It Ap Sz. unfold enqueue. apply wp_bind, wp_solving. intros b.
  assert (Triv : step_post t s (with_counters (S (s_reads s)) (s_scores s) (s_picks s) (s_sames s) s)).
  { split; [exact I|]. repeat (split; [reflexivity|]). split; [left; reflexivity|]. apply Nat.le_add_r. }
  destruct b; cbn [negb]; [|exact Triv].
  pose proof (iv_good _ _ _ _ _ _ _ I) as GD. rewrite Forall_forall in GD. destruct (GD t It) as [N G].
  pose proof (is_solution_iff _ _ _ (gd_wf _ _ _ G)) as SOL.
  apply wp_bind, wp_gets. set (s1 := with_counters _ _ _ _ s) in *.
  assert (I1 : Inv s1) by exact I.
  change (s_heap s1) with (s_heap s).
  destruct (is_solution p (s_heap s) (t_sources t)) eqn:ES.
  - assert (SV : t_source_values t = p_targets p) by (apply SOL; reflexivity).
    apply wp_bind. unfold solution_found.
    apply wp_bind, wp_gets, wp_bind, wp_gets, wp_bind, wp_gets.
    destruct ((s_solutions_count s1 =? 0) || (t_size t <? s_best_size s1)) eqn:EC.
    + apply wp_bind, wp_modify, wp_ret.
      set (s2 := with_solutions [t] 1 (t_size t) s1).
      assert (I2 : Inv s2).
      { destruct I1. constructor; auto.
        - constructor; [|constructor]. auto.
        - cbn [s2 with_solutions s_best_size] in *. change (s_best_size s1) with (s_best_size s) in *. lia.
        - repeat constructor. }
      eapply wp_conseq; [|apply (purge_ok R s2 I2)]. intros _ s3 (I3 & L3 & H3 & B3 & _ & W3).
      split; [exact I3|]. split; [exact L3|]. split; [exact H3|]. split; [rewrite B3; exact Sz|]. split; [right; exact B3|].
      etransitivity; [exact W3|]. apply Nat.le_add_r.
    + apply orb_false_iff in EC. destruct EC as [EC1 EC2].
      destruct (t_size t =? s_best_size s1) eqn:EQ. 2: { change (s_best_size s1) with (s_best_size s) in *. exfalso. lia. }
      apply wp_bind. unfold wp. destruct (any_same_ok R t (s_solutions s1) s1) as (known & k & ->).
      set (s2 := with_counters _ _ _ _ s1). assert (I2 : Inv s2) by exact I.
      destruct known.
      * apply Triv.
      * cbn [mbind modify ret]. split; [|repeat (split; [reflexivity|]); split; [left; reflexivity|]; apply Nat.le_add_r].
        destruct I2. constructor; auto.
        -- cbn [with_solutions s_solutions s_best_size s_log] in *. apply Forall_app. split; [exact iv_sols0|]. constructor; [|constructor].
           split; [exact It|]. split; [exact SV|]. change (s_best_size s1) with (s_best_size s) in *. cbn. lia.
        -- cbn [with_solutions s_solutions_count s_solutions] in *. rewrite app_length. cbn [length].
           change (s_solutions_count s1) with (s_solutions_count s2). rewrite iv_count0. cbn. lia.
        -- apply ordpairs_snoc; [exact iv_sols_apart0|exact Ap].
  - assert (NS : t_source_values t <> p_targets p) by (intros E; apply SOL in E; discriminate).
    apply wp_bind, wp_gets, wp_bind, wp_modify, wp_modify.
    split; [|repeat (split; [reflexivity|]); split; [left; reflexivity|]].
    + destruct I1. constructor; auto.
      * cbn [with_queue s_queue s_log with_counters]. rewrite Forall_forall in *. intros e He.
        apply (Permutation_in _ (insort_perm entry_le _ _)) in He. destruct He as [<-|He]; [split; [exact It|exact NS]|apply iv_queue0, He].
      * cbn [with_queue s_queue with_counters]. apply insort_sorted; [apply entry_le_total|apply entry_le_trans|exact iv_sorted0].
    + cbn [with_queue s_queue with_counters s1]. rewrite (weight_perm _ _ (insort_perm entry_le _ _)), weight_cons. unfold entry_weight. cbn [fst]. lia.
Qed.

(** ** one application of an operation *)
Lemma in_tree_extends h h' t N a : extends h h' -> wf h t N -> (in_tree h' t a <-> in_tree h t a).
Proof.
  intros E W. rewrite (wf_in_tree h t N a W). apply (wf_in_tree h' t N a). apply (wf_extends h h' t N E W).
Qed.

Lemma try_body_ok R t N sim o cost s : Inv s -> In t (explored p (s_log s)) -> good (s_heap s) t N ->
  candidate p (s_heap s) t (compute_cant_use (p_target_counts p) (t_source_values t)) sim o cost ->
  t_size t + cost <= s_best_size s ->
  wp (try_body R p t sim o cost) (fun _ s' => Inv s' /\ later s s' /\
      (s_best_size s' = s_best_size s \/ s_best_size s' = t_size t + cost) /\
      (weight (s_queue s') <= weight (s_queue s) + S K ^ Z.to_nat (p_initial_best_size p - (t_size t + 1)))%nat)
    (fun _ _ => False) s.
Proof.
  intros I It G C Sz. pose proof (gd_wf _ _ _ G) as W. pose proof (cd_sensible _ _ _ _ _ _ _ C) as SE.
  pose proof (priced_pos _ _ _ _ _ W SE (cd_priced _ _ _ _ _ _ _ C)) as CP.
  unfold try_body. apply wp_bind, wp_solving. intros b. set (s1 := with_counters _ _ _ _ s).
  assert (I1 : Inv s1) by exact I. assert (LT1 : later s s1) by (constructor; [apply extends_refl|exists []; reflexivity|cbn; lia]).
  destruct b; cbn [negb].
  2: { apply wp_ret. split; [exact I1|]. split; [exact LT1|]. split; [left; reflexivity|]. apply Nat.le_add_r. }
  apply wp_bind, wp_gets. change (s_heap s1) with (s_heap s). set (h := s_heap s) in *.
  destruct (apply_op_ok h t N o cost W SE) as (h' & t' & N' & EA & A).
  apply wp_bind. eapply wp_lift; [exact EA|]. cbn beta iota. apply wp_bind, wp_modify, wp_bind, wp_modify.
  set (s2 := with_log _ _). apply wp_bind.
  set (e := MkEvent t o sim cost t') in *.
  pose proof (given_facts h t N o W SE) as (GZ & GP & GL & GM).
  assert (PS : t_source_values t' = sim).
  { apply sorted_z_unique; [apply (wf_sorted _ _ _ (ap_wf _ _ _ _ _ _ _ _ A))|apply (cd_sorted _ _ _ _ _ _ _ C)|].
    apply (Permutation_app_inv_r (taken h t o)). rewrite (ap_values _ _ _ _ _ _ _ _ A). symmetry. apply (cd_sim _ _ _ _ _ _ _ C). }
  assert (E2 : extends h h') by apply (ap_extends _ _ _ _ _ _ _ _ A).
  assert (G' : good h' t' N').
  { destruct A. constructor; auto.
    - rewrite ap_roots. apply (gd_roots _ _ _ G).
    - apply zsum_perm in ap_values. rewrite !zsum_app, GZ in ap_values. rewrite <- (gd_total _ _ _ G). lia.
    - intros B a Na. destruct (ap_all (value h' a)) as [(a0 & Na0 & E0)|IG]; [eauto| |].
      + rewrite E0. apply (gd_limit _ _ _ G B a0 Na0).
      + assert (LT : zsum (taken h t o) <= 1200 -> value h' a <= 1200).
        { intros L. destruct o as [i c|i d|i c|is]; try (specialize (GM ltac:(discriminate) _ IG); lia).
          unfold given in IG. destruct IG as [<-|[]]. exact L. }
        apply LT. destruct o as [i c|i d|i c|is]; [| | |apply (cd_limit _ _ _ _ _ _ _ C is eq_refl)];
        match goal with |- zsum (taken h t ?o) <= 1200 =>
          assert (IT : In (zsum (taken h t o)) (taken h t o)) by (rewrite one_taken at 2 by exact Logic.I; left; reflexivity);
          apply (taken_pos h t N o _ W SE) in IT; destruct IT as [_ IT]; rewrite (wf_values _ _ _ W) in IT;
          apply in_map_iff in IT; destruct IT as (a1 & <- & Ha1); apply (gd_limit _ _ _ G B); apply (wf_open _ _ _ W), Ha1 end.
    - assert (TT : zsum (t_source_values t') = zsum (p_sources p)) by (apply zsum_perm in ap_values; rewrite !zsum_app, GZ in ap_values; rewrite <- (gd_total _ _ _ G); lia).
      intros a Na. destruct (ap_all (value h' a)) as [(a0 & Na0 & E0)|IG]; [eauto|rewrite E0; apply (gd_bound _ _ _ G a0 Na0)|].
      assert (J : In (value h' a) (t_source_values t' ++ taken h t o)) by (apply (Permutation_in _ (Permutation_sym ap_values)), in_or_app; right; exact IG).
      apply in_app_or in J. destruct J as [J|J].
      + rewrite <- TT. apply zsum_in_le; [|exact J]. intros v Iv. rewrite (wf_values _ _ _ ap_wf) in Iv. apply in_map_iff in Iv. destruct Iv as (x & <- & Ix). apply (wf_open _ _ _ ap_wf) in Ix. pose proof (wf_pos _ _ _ ap_wf x (proj1 Ix)). lia.
      + apply (taken_pos h t N o _ W SE) in J. destruct J as [_ J]. rewrite (wf_values _ _ _ W) in J. apply in_map_iff in J. destruct J as (x & <- & Ix). apply (gd_bound _ _ _ G), (wf_open _ _ _ W), Ix.
    - intros r v Hr Hv. destruct (ap_root_past r v Hr Hv) as [H|(r0 & Hr0 & H)]; [rewrite <- (gd_roots _ _ _ G); exact H|apply (gd_past _ _ _ G r0 v Hr0 H)]. }
  assert (New : forall u, In u (explored p (s_log s)) -> apart h' t' u).
  { pose proof (iv_good _ _ _ _ _ _ _ I) as GD. rewrite Forall_forall in GD. intros u Hu a Ha Hb. destruct (GD u Hu) as [Nu Gu].
    apply (wf_in_tree _ _ _ _ (ap_wf _ _ _ _ _ _ _ _ A)) in Ha. apply (ap_fresh _ _ _ _ _ _ _ _ A) in Ha.
    apply (in_tree_extends h h' u Nu a E2 (gd_wf _ _ _ Gu)) in Hb. apply (wf_in_tree _ _ _ _ (gd_wf _ _ _ Gu)) in Hb.
    apply (wf_bound _ _ _ (gd_wf _ _ _ Gu)) in Hb. exact (Nat.lt_irrefl _ (Nat.lt_le_trans _ _ _ Hb Ha)). }
  assert (Mono : forall l, Forall (good_tree h) l -> ForallOrdPairs (apart h) l -> ForallOrdPairs (apart h') l).
  { intros l. induction 2 as [|u l Fu _ IH]; [constructor|]. inversion H; subst. constructor; [|auto].
    rewrite Forall_forall in *. intros v Hv a Ha Hb. destruct H2 as [Nu Gu]. destruct (H3 v Hv) as [Nv Gv].
    apply (in_tree_extends h h' u Nu a E2 (gd_wf _ _ _ Gu)) in Ha. apply (in_tree_extends h h' v Nv a E2 (gd_wf _ _ _ Gv)) in Hb.
    apply (Fu v Hv a Ha Hb). }
  assert (I2 : Inv s2).
  { pose proof I1 as I0. destruct I0 as [GD LG CH AP QU SO SL CT FS BS SA PO HV].
    assert (EX : explored p (e :: s_log s) = t' :: explored p (s_log s)) by reflexivity.
    assert (FROM : forall x, In x (s_log s) -> In (ev_from x) (explored p (s_log s))).
    { assert (CF : forall l, chained l -> forall x, In x l -> exists l1 l2, l = l1 ++ x :: l2 /\ In (ev_from x) (explored p l2)).
      { induction l as [|y l IH]; intros Hc x Hx; [destruct Hx|]. destruct Hc as [Hc1 Hc2]. destruct Hx as [->|Hx].
        - exists [], l. auto.
        - destruct (IH Hc2 x Hx) as (l1 & l2 & -> & Hf). exists (y :: l1), l2. auto. }
      intros x Hx. destruct (CF _ CH x Hx) as (l1 & l2 & EL & Hf). change (s_log s1) with (s_log s) in *. rewrite EL.
      rewrite explored_app. apply in_or_app. right. right. exact Hf. }
    constructor.
    - change (Forall (good_tree h') (t' :: explored p (s_log s))). constructor; [exists N'; exact G'|].
      rewrite Forall_forall in *. intros u Hu. destruct (GD u Hu) as [Nu Gu]. exists Nu. apply (good_extends h h' u Nu E2 Gu).
    - change (Forall (event_ok h') (e :: s_log s)). constructor.
      + apply (event_extends h h' e E2); [exists N; exact G|]. cbn [ev_from ev_to ev_op ev_sim ev_cost e].
        destruct C. constructor; cbn [ev_from ev_to ev_op ev_sim ev_cost e]; auto.
        * apply (ap_values _ _ _ _ _ _ _ _ A).
        * apply (ap_size _ _ _ _ _ _ _ _ A).
        * apply (ap_past _ _ _ _ _ _ _ _ A).
        * intros v Hv. apply not_cant_use; [apply (lf_counts p F)|apply (taken_pos h t N o v W SE Hv)|apply cd_cant, Hv].
        * rewrite (ap_size _ _ _ _ _ _ _ _ A). change (s_best_size s1) with (s_best_size s) in BS. lia.
      + rewrite Forall_forall in *. intros x Hx. apply (event_extends h h' x E2); [|apply LG, Hx]. apply GD, FROM, Hx.
    - split; [exact It|exact CH].
    - change (ForallOrdPairs (apart h') (t' :: explored p (s_log s))). constructor.
      + apply Forall_forall. exact New.
      + apply Mono; assumption.
    - change (Forall (fun x => In (fst x) (t' :: explored p (s_log s)) /\ t_source_values (fst x) <> p_targets p) (s_queue s)).
      rewrite Forall_forall in *. intros x Hx. destruct (QU x Hx). split; [right|]; assumption.
    - exact SO.
    - change (Forall (fun x => In x (t' :: explored p (s_log s)) /\ t_source_values x = p_targets p /\ t_size x = s_best_size s) (s_solutions s)).
      rewrite Forall_forall in *. intros x Hx. destruct (SL x Hx) as [? ?]. split; [right|]; assumption.
    - exact CT.
    - exact FS.
    - exact BS.
    - apply Mono; [|exact SA]. rewrite Forall_forall in *. intros u Hu. apply GD, (SL u Hu).
    - change (Forall (pasts_ok h') (e :: s_log s)). constructor.
      + intros a v Ha Hv. cbn [ev_from ev_to ev_op e] in *. rewrite (taken_extends h h' t N o W E2 SE).
        assert (Na : N' a) by (apply (wf_open _ _ _ (ap_wf _ _ _ _ _ _ _ _ A)), Ha).
        destruct (ap_node_past _ _ _ _ _ _ _ _ A a v Na Hv) as [H|[H|(r & Hr & H)]]; [auto|auto|].
        right. left. apply (gd_past _ _ _ G r v Hr H).
      + rewrite Forall_forall in *. intros x Hx. apply (pasts_extends h h' x E2); [apply GD, FROM, Hx|apply GD, in_or_app; left; apply in_map, Hx|apply (eo_sensible _ _ (LG x Hx))|apply PO, Hx].
    - apply (halves_apply h t N o cost h' t' W SE); [apply (cd_half _ _ _ _ _ _ _ C)|exact HV|exact EA]. }
  assert (LT2 : later s s2) by (constructor; [exact E2|exists [e]; reflexivity|cbn; lia]).
  eapply wp_conseq; [|apply (enqueue_ok R t' s2 I2)].
  - intros _ s3 (I3 & L3 & H3 & B3 & B3' & W3). apply wp_ret. split; [exact I3|]. split.
    { apply (later_trans s s2 s3 LT2). constructor; [rewrite H3; apply extends_refl|exists []; exact L3|exact B3]. }
    split.
    { rewrite (ap_size _ _ _ _ _ _ _ _ A) in B3'. exact B3'. }
    etransitivity; [exact W3|]. apply Nat.add_le_mono_l. apply Nat.pow_le_mono_r; [lia|]. rewrite (ap_size _ _ _ _ _ _ _ _ A). lia.
  - left. reflexivity.
  - apply Forall_forall. intros u Hu a Ha Hb. pose proof (iv_sols _ _ _ _ _ _ _ I) as SL. rewrite Forall_forall in SL.
    apply (New u (proj1 (SL u Hu)) a Hb Ha).
  - rewrite (ap_size _ _ _ _ _ _ _ _ A). exact Sz.
Qed.

(** ** one exploration *)
Lemma zrange_length lo hi : length (zrange lo hi) = Z.to_nat (hi - lo).
Proof. unfold zrange. rewrite map_length, seq_length. reflexivity. Qed.
Lemma filter_length_le {A} f (l : list A) : (length (filter f l) <= length l)%nat.
Proof. induction l as [|x l IH]; [cbn; lia|]. cbn [filter]. destruct (f x); cbn [length]; lia. Qed.

Lemma flat_map_bound {A} (f : nat * nat -> list A) (g : nat -> Z) l :
  (forall e, Z.of_nat (length (f e)) <= g (snd e)) -> Z.of_nat (length (flat_map f (enumerate l))) <= zsum (map g l).
Proof.
  intros H. unfold enumerate. generalize O. induction l as [|x l IH]; intros k; [cbn; lia|].
  cbn [length seq combine flat_map map]. rewrite app_length, zsum_cons, Nat2Z.inj_add. specialize (H (k, x)). cbn [snd] in H. specialize (IH (S k)). lia.
Qed.
Definition total : nat := Z.to_nat (zsum (p_sources p)).

Section Explore.
Variables (R : oracle) (t : tree Z).
Hypothesis HK : (3 * total + 2 ^ total * total <= K)%nat.

Lemma candidates_bounds h N : good h t N ->
  (length (extract_candidates h t) <= total)%nat /\ (length (divide_candidates h t) <= total)%nat /\
  (length (t_sources t) <= total)%nat /\ (2 ^ length (t_sources t) * length (t_sources t) <= 2 ^ total * total)%nat.
Proof.
  intros G. pose proof (gd_wf _ _ _ G) as W. pose proof (gd_total _ _ _ G) as T. rewrite (wf_values _ _ _ W) in T.
  assert (VP : forall a, In a (t_sources t) -> 0 < value h a) by (intros a Ha; apply (wf_pos _ _ _ W), (wf_open _ _ _ W), Ha).
  assert (B3 : (length (t_sources t) <= total)%nat).
  { unfold total. rewrite <- T. assert (H : forall l, (forall a, In a l -> 0 < value h a) -> Z.of_nat (length l) <= zsum (map (value h) l)).
    { induction l as [|a l IH]; intros H; [cbn; lia|]. cbn [length map]. rewrite zsum_cons. pose proof (H a (or_introl eq_refl)).
      assert (Z.of_nat (length l) <= zsum (map (value h) l)) by (apply IH; intros x Hx; apply H; right; exact Hx). lia. }
    specialize (H _ VP). lia. }
  assert (MX : forall l, (forall a, In a l -> 0 < value h a) -> zsum (map (fun a => Z.max 0 (value h a)) l) = zsum (map (value h) l)).
  { intros l H. f_equal. apply map_ext_in. intros a Ha. specialize (H a Ha). lia. }
  split; [|split; [|split; [exact B3|]]].
  - assert (H : Z.of_nat (length (extract_candidates h t)) <= zsum (map (fun a => Z.max 0 (value h a)) (t_sources t))).
    { apply flat_map_bound. intros [i a]. cbn [fst snd]. rewrite map_length, zrange_length. change (n_value (get h a)) with (value h a).
      assert (2 * ((value h a - 1) / 2) <= value h a - 1) by (apply Z.mul_div_le; lia). lia. }
    rewrite MX in H by exact VP. unfold total. lia.
  - assert (H : Z.of_nat (length (divide_candidates h t)) <= zsum (map (fun a => Z.max 0 (value h a)) (t_sources t))).
    { apply flat_map_bound. intros [i a]. cbn [fst snd]. rewrite map_length. change (n_value (get h a)) with (value h a).
      pose proof (filter_length_le (fun d => value h a mod d =? 0) (zrange 2 (value h a + 1))) as L. rewrite zrange_length in L. lia. }
    rewrite MX in H by exact VP. unfold total. lia.
  - apply Nat.mul_le_mono; [apply Nat.pow_le_mono_r; [lia|exact B3]|exact B3].
Qed.

Definition step_weight : nat :=
  if t_size t <? p_initial_best_size p then (S K ^ Z.to_nat (p_initial_best_size p - (t_size t + 1)))%nat else O.
Lemma step_weight_lt sc : (K * step_weight < entry_weight (t, sc))%nat.
Proof.
  unfold step_weight, entry_weight. cbn [fst]. destruct (Z.ltb_spec (t_size t) (p_initial_best_size p)) as [L|L].
  - replace (Z.to_nat (p_initial_best_size p - t_size t)) with (S (Z.to_nat (p_initial_best_size p - (t_size t + 1)))) by lia.
    cbn [Nat.pow]. assert (S K ^ Z.to_nat (p_initial_best_size p - (t_size t + 1)) <> 0)%nat by (apply Nat.pow_nonzero; lia). lia.
  - rewrite Nat.mul_0_r. apply Nat.neq_0_lt_0, Nat.pow_nonzero. lia.
Qed.

Definition run_inv (s0 : state) (n : nat) (s : state) : Prop :=
  Inv s /\ later s0 s /\ (weight (s_queue s) <= weight (s_queue s0) + n * step_weight)%nat.
Lemma run_mono s0 : forall n m s, (n <= m)%nat -> run_inv s0 n s -> run_inv s0 m s.
Proof. intros n m s L (I & LT & W). split; [exact I|]. split; [exact LT|]. nia. Qed.
Lemma run_counters s0 : forall n a b c d s, run_inv s0 n s -> run_inv s0 n (with_counters a b c d s).
Proof.
  intros n a b c d s (I & LT & W). split; [exact I|]. split; [|exact W].
  destruct LT. constructor; assumption.
Qed.
Lemma run_yield s0 s1 N cu : cu = compute_cant_use (p_target_counts p) (t_source_values t) ->
  In t (explored p (s_log s0)) -> Inv s0 -> later s0 s1 -> good (s_heap s1) t N ->
  forall sim o cost n s, candidate p (s_heap s1) t cu sim o cost -> run_inv s0 n s /\ later s1 s -> t_size t + cost <= s_best_size s ->
  wp (try_body R p t sim o cost) (fun _ s' => (run_inv s0 (S n) s' /\ later s1 s') /\ (s_best_size s' = s_best_size s \/ s_best_size s' = t_size t + cost)) (fun _ _ => False) s.
Proof.
  intros -> It I0 LT1 G sim o cost n s C [(I & LT & W) LTs] Sz.
  assert (E : extends (s_heap s1) (s_heap s)) by apply (la_heap _ _ LTs).
  pose proof (candidate_extends p _ _ t N _ _ _ _ (gd_wf _ _ _ G) E C) as C'.
  pose proof (good_extends _ _ t N E G) as G'.
  pose proof (priced_pos _ _ _ _ _ (gd_wf _ _ _ G') (cd_sensible _ _ _ _ _ _ _ C') (cd_priced _ _ _ _ _ _ _ C')) as CP.
  eapply wp_conseq; [|apply (try_body_ok R t N sim o cost s I (later_explored _ _ _ LT It) G' C' Sz)].
  intros _ s' (I' & LT' & B' & W'). split; [|exact B']. split; [|eapply later_trans; eassumption].
  split; [exact I'|]. split; [eapply later_trans; eassumption|].
  assert (SW : step_weight = (S K ^ Z.to_nat (p_initial_best_size p - (t_size t + 1)))%nat).
  { unfold step_weight. pose proof (iv_best _ _ _ _ _ _ _ I). destruct (Z.ltb_spec (t_size t) (p_initial_best_size p)); [reflexivity|lia]. }
  rewrite <- SW in W'. cbn [Nat.mul]. lia.
Qed.

Lemma run_sims s0 N cu (sims : oracle -> problem -> tree Z -> list Z -> (list Z -> op -> Z -> M bool) -> M unit) (bound : nat) :
  cu = compute_cant_use (p_target_counts p) (t_source_values t) -> In t (explored p (s_log s0)) -> Inv s0 ->
  (forall h (J : nat -> state -> Prop) (X : exn -> state -> Prop) (yield_ : list Z -> op -> Z -> M bool), good h t N ->
     (forall n m s, (n <= m)%nat -> J n s -> J m s) ->
     (forall n a b c d s, J n s -> J n (with_counters a b c d s)) ->
     (forall sim o cost n s, candidate p h t cu sim o cost -> J n s -> t_size t + cost <= s_best_size s ->
        wp (yield_ sim o cost) (fun _ s' => J (S n) s' /\ (s_best_size s' = s_best_size s \/ s_best_size s' = t_size t + cost)) X s) ->
     forall n s, s_heap s = h -> J n s -> wp (sims R p t cu yield_) (fun _ s' => J (n + bound)%nat s') X s) ->
  good (s_heap s0) t N ->
  forall n s, run_inv s0 n s -> wp (try_op R p (sims R p) t cu) (fun _ s' => run_inv s0 (n + bound) s') (fun _ _ => False) s.
Proof.
  intros EC It I0 HS G0 n s HJ. unfold try_op. apply wp_bind.
  pose proof (good_extends _ _ t N (la_heap _ _ (proj1 (proj2 HJ))) G0) as G1.
  eapply wp_conseq; [|apply (HS (s_heap s) (fun n s' => run_inv s0 n s' /\ later s s') (fun _ _ => False) (try_body R p t) G1)].
  - intros _ s' [HJ' _]. apply wp_solving. intros b. apply run_counters, HJ'.
  - intros n1 m1 s1 L [H1 H2]. split; [apply (run_mono s0 n1 m1 s1 L H1)|exact H2].
  - intros n1 a b c d s1 [H1 H2]. split; [apply run_counters, H1|]. destruct H2. constructor; assumption.
  - apply (run_yield s0 s N cu EC It I0 (proj1 (proj2 HJ)) G1).
  - reflexivity.
  - split; [exact HJ|apply later_refl].
Qed.

Lemma explore_ok s0 : Inv s0 -> In t (explored p (s_log s0)) ->
  wp (explore R p t) (fun _ s' => run_inv s0 K s') (fun _ _ => False) s0.
Proof.
  intros I0 It. pose proof (iv_good _ _ _ _ _ _ _ I0) as GD. rewrite Forall_forall in GD. destruct (GD t It) as [N G].
  pose proof (gd_wf _ _ _ G) as W.
  unfold explore. apply wp_bind, wp_gets.
  set (cu := compute_cant_use (p_target_counts p) (node_values (s_heap s0) (t_sources t))).
  assert (EC : cu = compute_cant_use (p_target_counts p) (t_source_values t)) by (unfold cu; rewrite (wf_values _ _ _ W); reflexivity).
  assert (J0 : run_inv s0 O s0) by (split; [exact I0|]; split; [apply later_refl|]; lia).
  assert (NE : t_source_values t <> []).
  { intros E. pose proof (gd_total _ _ _ G) as T. rewrite E in T. cbn in T. pose proof (lf_pos p F) as P. pose proof (lf_nonempty p F) as NS.
    destruct (p_sources p) as [|x l]; [congruence|]. rewrite zsum_cons in T. inversion P; subst.
    assert (0 <= zsum l) by (apply zsum_nonneg; assumption). lia. }
  destruct (zmax (t_source_values t)) as [top|] eqn:EM. 2: { destruct (t_source_values t); [congruence|discriminate]. }
  destruct (candidates_bounds _ _ G) as (B1 & B2 & B3 & B4).
  assert (XE : forall n s, run_inv s0 n s -> wp (try_op R p (extract_sims R p) t cu) (fun _ s' => run_inv s0 (n + total) s') (fun _ _ => False) s).
  { apply (run_sims s0 N cu extract_sims total EC It I0); [|exact G].
    intros h J X y Gh M1 M2 Y n s EH HJ. eapply wp_conseq; [|apply (extract_sims_ok p h t N cu (gd_wf _ _ _ Gh) J X y M1 M2 Y R n s EH HJ)].
    intros u s' H. destruct (candidates_bounds _ _ Gh) as (C1 & C2 & C3 & C4). eapply M1; [|exact H]. lia. }
  assert (XD : forall n s, run_inv s0 n s -> wp (try_op R p (divide_sims R p) t cu) (fun _ s' => run_inv s0 (n + total) s') (fun _ _ => False) s).
  { apply (run_sims s0 N cu divide_sims total EC It I0); [|exact G].
    intros h J X y Gh M1 M2 Y n s EH HJ. eapply wp_conseq; [|apply (divide_sims_ok p h t N cu (gd_wf _ _ _ Gh) J X y M1 M2 Y R n s EH HJ)].
    intros u s' H. destruct (candidates_bounds _ _ Gh) as (C1 & C2 & C3 & C4). eapply M1; [|exact H]. lia. }
  assert (XS : forall n s, run_inv s0 n s -> wp (try_op R p (split_sims R p) t cu) (fun _ s' => run_inv s0 (n + total) s') (fun _ _ => False) s).
  { apply (run_sims s0 N cu split_sims total EC It I0); [|exact G].
    intros h J X y Gh M1 M2 Y n s EH HJ. eapply wp_conseq; [|apply (split_sims_ok p (lf_gcd p F) h t N cu (gd_wf _ _ _ Gh) J X y M1 M2 Y R n s EH HJ)].
    intros u s' H. eapply M1; [|exact H]. lia. }
  assert (XM : forall n s, run_inv s0 n s -> wp (try_op R p (merge_sims R p) t cu) (fun _ s' => run_inv s0 (n + 2 ^ total * total) s') (fun _ _ => False) s).
  { apply (run_sims s0 N cu merge_sims (2 ^ total * total)%nat EC It I0); [|exact G].
    intros h J X y Gh M1 M2 Y n s EH HJ. eapply wp_conseq; [|apply (merge_sims_ok p h t N cu (gd_wf _ _ _ Gh) (gd_count _ _ _ Gh) J X y M1 M2 Y R n s EH HJ)].
    intros u s' H. eapply M1; [|exact H]. lia. }
  assert (FIN : forall n s, (n <= K)%nat -> run_inv s0 n s -> run_inv s0 K s) by (intros n s; apply run_mono).
  destruct (top <=? p_min_target p).
  - eapply wp_conseq; [|apply XM, J0]. intros b s H. eapply FIN; [|exact H]. lia.
  - apply wp_bind. eapply wp_conseq; [|apply XE, J0]. intros b1 s1 J1. cbn beta in J1.
    destruct (negb b1); [apply wp_ret; eapply FIN; [|exact J1]; lia|].
    apply wp_bind. eapply wp_conseq; [|apply XD, J1]. intros b2 s2 J2. cbn beta in J2.
    destruct (negb b2); [apply wp_ret; eapply FIN; [|exact J2]; lia|].
    apply wp_bind. eapply wp_conseq; [|apply XS, J2]. intros b3 s3 J3. cbn beta in J3.
    destruct (negb b3); [apply wp_ret; eapply FIN; [|exact J3]; lia|].
    destruct (t_n_sources t =? 1); [apply wp_ret; eapply FIN; [|exact J3]; lia|].
    eapply wp_conseq; [|apply XM, J3]. intros b s H. eapply FIN; [|exact H]. lia.
Qed.
End Explore.

(** ** dequeue *)
Lemma pop_split {A} k (l : list A) x : nth_error l k = Some x -> l = firstn k l ++ x :: skipn (S k) l.
Proof. revert k. induction l as [|y l IH]; intros [|k] E; try discriminate; cbn in *; [congruence|]. f_equal. apply IH, E. Qed.
Lemma list_pop_ok {A} i (l : list A) : (i = -1 \/ 0 <= i < Z.of_nat (length l)) -> l <> [] ->
  exists k x, list_pop i l = Ok (x, firstn k l ++ skipn (S k) l) /\ nth_error l k = Some x /\ (i = -1 -> k = (length l - 1)%nat).
Proof.
  intros Hi NE. assert (L : (0 < length l)%nat) by (destruct l; [congruence|cbn; lia]).
  unfold list_pop, py_index. set (k := if i <? 0 then i + Z.of_nat (length l) else i).
  assert (B : 0 <= k < Z.of_nat (length l)) by (unfold k; destruct (Z.ltb_spec i 0); lia).
  destruct (nth_error l (Z.to_nat k)) as [x|] eqn:E. 2: { apply nth_error_None in E. lia. }
  exists (Z.to_nat k), x. split; [|split; [exact E|]].
  - replace ((0 <=? k) && (k <? Z.of_nat (length l))) with true by (symmetry; apply andb_true_iff; split; [apply Z.leb_le|apply Z.ltb_lt]; lia).
    rewrite E. reflexivity.
  - intros E1. unfold k. destruct (Z.ltb_spec i 0); lia.
Qed.

Definition dequeued (q : list (tree Z * Q)) (x : tree Z * Q) (q' : list (tree Z * Q)) (k : nat) : Prop :=
  nth_error q k = Some x /\ q' = firstn k q ++ skipn (S k) q.

(** all the outcomes of dequeue *)
Lemma dequeue_cases R s : s_queue s <> [] ->
  (exists r, dequeue R s = (Ok None, with_counters r (s_scores s) (s_picks s) (s_sames s) s) /\ ~ (s_forced_stop s = false /\ forall k, o_stop R = Some k -> (s_reads s < k)%nat)) \/
  (exists r c k x, dequeue R s = (Ok (Some x), with_counters r (s_scores s) c (s_sames s) (with_queue (firstn k (s_queue s) ++ skipn (S k) (s_queue s)) s)) /\
     nth_error (s_queue s) k = Some x /\ (s_solutions_count s > 0 -> k = (length (s_queue s) - 1)%nat)).
Proof.
  intros NE. unfold dequeue, mbind, read_solving, gets. cbn [fst snd].
  set (s1 := with_counters (S (s_reads s)) _ _ _ s).
  set (b := negb (s_forced_stop s) && _). destruct b eqn:EB; cbn [negb].
  2: { left. exists (S (s_reads s)). split; [reflexivity|]. intros [E1 E2]. unfold b in EB. rewrite E1 in EB.
    destruct (o_stop R) as [k|]; [|discriminate]. specialize (E2 k eq_refl). cbn [negb andb] in EB. apply Nat.ltb_ge in EB. lia. }
  right. change (s_queue s1) with (s_queue s). change (s_solutions_count s1) with (s_solutions_count s).
  destruct (((length (s_queue s) <? 3)%nat || (s_solutions_count s >? 0))) eqn:EC.
  - unfold pop_at, mbind, gets, lift, modify, ret. change (s_queue s1) with (s_queue s).
    destruct (list_pop_ok (-1) (s_queue s) (or_introl eq_refl) NE) as (k & x & E & EN & Ek). rewrite E.
    exists (S (s_reads s)), (s_picks s), k, x. split; [reflexivity|]. split; [exact EN|auto].
  - unfold pop_at, mbind, gets, lift, modify, ret. cbn [with_counters s_queue s_picks s1].
    apply orb_false_iff in EC. destruct EC as [EC1 EC2]. apply Nat.ltb_ge in EC1.
    set (i := match o_pick R (s_picks s) with None => -1 | Some i => Z.of_nat (i mod (length (s_queue s) - 1)) end).
    assert (Bi : i = -1 \/ 0 <= i < Z.of_nat (length (s_queue s))).
    { unfold i. destruct (o_pick R (s_picks s)) as [j|]; [|auto]. right. pose proof (Nat.mod_upper_bound j (length (s_queue s) - 1)). lia. }
    destruct (list_pop_ok i (s_queue s) Bi NE) as (k & x & E & EN & Ek). rewrite E.
    exists (S (s_reads s)), (S (s_picks s)), k, x. split; [reflexivity|]. split; [exact EN|]. lia.
Qed.

Lemma sorted_pop {A} (Rl : A -> A -> Prop) k (q : list A) x : nth_error q k = Some x -> StronglySorted Rl q -> StronglySorted Rl (firstn k q ++ skipn (S k) q).
Proof.
  intros E S. rewrite (pop_split k q x E) in S. change (x :: skipn (Datatypes.S k) q) with ([x] ++ skipn (Datatypes.S k) q) in S.
  apply (sorted_drop Rl (fun _ => false)) in S. exact S.
Qed.

(** ** the main loop *)
Definition loop_exn (R : oracle) (fuel : nat) (s : state) (e : exn) (s' : state) : Prop :=
  Inv s' /\ later s s' /\
  ((e = TypeError /\ o_stop R <> None) \/ (e = OutOfFuel /\ (fuel <= weight (s_queue s))%nat)).

Lemma solve_loop_ok R (HK : (3 * total + 2 ^ total * total <= K)%nat) : forall fuel s, Inv s ->
  wp (solve_loop R p fuel) (fun _ s' => Inv s' /\ later s s') (loop_exn R fuel s) s.
Proof.
  induction fuel as [|fuel IH]; intros s I.
  - cbn [solve_loop]. unfold wp, raise. split; [exact I|]. split; [apply later_refl|]. right. split; [reflexivity|lia].
  - cbn [solve_loop]. apply wp_bind, wp_solving. intros b. set (s1 := with_counters _ _ _ _ s).
    assert (I1 : Inv s1) by exact I. assert (LT1 : later s s1) by (constructor; [apply extends_refl|exists []; reflexivity|cbn; lia]).
    destruct (negb b); [apply wp_ret; auto|]. apply wp_bind, wp_gets. change (s_queue s1) with (s_queue s).
    destruct (s_queue s) as [|e0 q0] eqn:EQ; [apply wp_ret; auto|].
    assert (NE : s_queue s1 <> []) by (change (s_queue s1) with (s_queue s); rewrite EQ; discriminate).
    apply wp_bind. unfold wp at 1. destruct (dequeue_cases R s1 NE) as [(r & E & NN)|(r & c & k & x & E & EN & _)]; rewrite E.
    + split; [exact I|]. split; [destruct LT1; constructor; assumption|]. left. split; [reflexivity|]. intros ES. apply NN.
      split; [apply (iv_forced _ _ _ _ _ _ _ I)|intros k Ek; congruence].
    + set (q := s_queue s1) in *. set (s2 := with_counters r _ c _ _).
      pose proof (pop_split _ _ _ EN) as SP.
      assert (I2 : Inv s2).
      { unfold Inv. cbn [s2 with_counters with_queue s_heap s_queue s_best_size s_solutions s_solutions_count s_forced_stop s_log].
        apply (queue_sub _ q); [|apply (sorted_pop _ k q x EN), (iv_sorted _ _ _ _ _ _ _ I1)|exact I1].
        intros e. rewrite SP at 3. rewrite !in_app_iff. cbn [In]. tauto. }
      assert (LT2 : later s s2) by (constructor; [apply extends_refl|exists []; reflexivity|cbn; lia]).
      assert (WX : weight q = (entry_weight x + weight (s_queue s2))%nat).
      { rewrite SP at 1. cbn [s2 with_counters with_queue s_queue]. rewrite !weight_app, weight_cons. lia. }
      assert (Ix : In (fst x) (explored p (s_log s2))).
      { pose proof (iv_queue _ _ _ _ _ _ _ I1) as QU. rewrite Forall_forall in QU. apply (QU x). apply (nth_error_In _ _ EN). }
      destruct x as [t sc]. cbn [fst] in Ix. apply wp_bind.
      pose proof (explore_ok R t HK s2 I2 Ix) as EX. unfold wp in EX |- *.
      destruct (explore R p t s2) as [[go|e] s3]; [|contradiction]. destruct EX as (I3 & LT3 & W3).
      assert (LT : later s s3) by (eapply later_trans; eassumption).
      pose proof (step_weight_lt t HK sc) as SW.
      destruct go; [|split; assumption].
      specialize (IH s3 I3). unfold wp in IH. destruct (solve_loop R p fuel s3) as [[u|e] s4].
      * destruct IH as [I4 LT4]. split; [exact I4|eapply later_trans; eassumption].
      * destruct IH as (I4 & LT4 & C). split; [exact I4|]. split; [eapply later_trans; eassumption|].
        destruct C as [C|[C L]]; [left; exact C|]. right. split; [exact C|]. change (s_queue s) with q in *. lia.
Qed.
End Weight.

(** ** the whole search *)
Lemma solve_ok R fuel K : (3 * total + 2 ^ total * total <= K)%nat ->
  match solve R fuel p with
  | (Ok _, s') => Inv s' /\ later (initial_state p) s'
  | (Err e, s') => Inv s' /\ later (initial_state p) s' /\
      ((e = TypeError /\ o_stop R <> None) \/ (e = OutOfFuel /\ (fuel <= S K ^ Z.to_nat (p_initial_best_size p))%nat))
  end.
Proof.
  intros HK. unfold solve, mbind.
  pose proof (enqueue_ok K R (snd (initial_tree p)) (initial_state p) initial_inv) as EN. unfold wp in EN.
  assert (SZ : t_size (snd (initial_tree p)) = 0) by reflexivity.
  destruct (enqueue R p (snd (initial_tree p)) (initial_state p)) as [[u|e] s1].
  - destruct EN as (I1 & L1 & H1 & B1 & _ & W1); [left; reflexivity|constructor|rewrite SZ; apply (lf_initial p F)|].
    assert (LT : later (initial_state p) s1) by (constructor; [rewrite H1; apply extends_refl|exists []; exact L1|exact B1]).
    pose proof (solve_loop_ok K R HK fuel s1 I1) as SL. unfold wp in SL.
    destruct (solve_loop R p fuel s1) as [[v|e] s2].
    + destruct SL. split; [assumption|eapply later_trans; eassumption].
    + destruct SL as (I2 & LT2 & C). split; [exact I2|]. split; [eapply later_trans; eassumption|].
      destruct C as [C|[C L]]; [left; exact C|right]. split; [exact C|]. rewrite SZ, Z.sub_0_r in W1. cbn [initial_state s_queue] in W1.
      change (weight K []) with O in W1. lia.
  - exfalso. apply EN; [left; reflexivity|constructor|rewrite SZ; apply (lf_initial p F)].
Qed.
End Inv.
