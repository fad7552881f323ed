(** Induction over the operations of a run. *)
From Verif Require Import Base BaseLemmas Cost CostSpec CostProofs Utils UtilsSpec UtilsProofs Fractions Load LoadSpec LoadProofs Tree TreeSpec
  Search SearchSpec HeapLemmas CopyProofs TreeInv TreeGrow TreeOps SearchGen SearchInit SearchInv SearchProofs.
From Coq Require Import QArith Qcanon.
Open Scope Z_scope.

Section Rule.
Variable p : problem.
Hypothesis L : loaded p.
Variable R : oracle.
Variable P : state -> Prop.
Hypothesis P_counters : forall a b c d s, P s -> P (with_counters a b c d s).
Hypothesis P_queue : forall q s, (forall e, In e q -> In e (s_queue s)) -> P s -> P (with_queue q s).
Hypothesis P_start : P (snd (enqueue R p (snd (initial_tree p)) (initial_state p))).
Hypothesis P_step : forall t N sim o cost s, Inv p s -> In t (explored p (s_log s)) -> t_source_values t <> p_targets p -> good p (s_heap s) t N ->
  candidate p (s_heap s) t (compute_cant_use (p_target_counts p) (t_source_values t)) sim o cost -> t_size t + cost <= s_best_size s ->
  P s -> P (snd (try_body R p t sim o cost s)).

Let F := loaded_ok p L.
Let K := (3 * total p + 2 ^ total p * total p)%nat.
Definition rule_inv (s0 : state) (s : state) : Prop := Inv p s /\ later s0 s /\ P s.

Section Explore.
Variable t : tree Z.
Hypothesis NT : t_source_values t <> p_targets p.
Lemma rule_yield s0 s1 N cu : cu = compute_cant_use (p_target_counts p) (t_source_values t) ->
  In t (explored p (s_log s0)) -> good p (s_heap s1) t N ->
  forall sim o cost (n : nat) s, candidate p (s_heap s1) t cu sim o cost -> rule_inv s0 s /\ later s1 s -> t_size t + cost <= s_best_size s ->
  wp (try_body R p t sim o cost) (fun _ s' => (rule_inv s0 s' /\ later s1 s') /\ (s_best_size s' = s_best_size s \/ s_best_size s' = t_size t + cost)) (fun _ _ => False) s.
Proof.
  intros -> It G sim o cost n s C [(I & LT & HP) LTs] Sz.
  assert (E : extends (s_heap s1) (s_heap s)) by apply (la_heap _ _ LTs).
  pose proof (candidate_extends p _ _ t N _ _ _ _ (gd_wf _ _ _ _ G) E C) as C'.
  pose proof (good_extends p _ _ t N E G) as G'. pose proof (later_explored p _ _ _ LT It) as It'.
  pose proof (try_body_ok p F K R t N sim o cost s I It' G' C' Sz) as H. pose proof (P_step t N sim o cost s I It' NT G' C' Sz HP) as HP'.
  unfold wp in *. destruct (try_body R p t sim o cost s) as [[b|e] s']; [|exact H]. destruct H as (I' & LT' & B' & _). split; [|exact B'].
  split; [|eapply later_trans; eassumption]. split; [exact I'|]. split; [eapply later_trans; eassumption|exact HP'].
Qed.
Lemma rule_counters s0 a b c d s : rule_inv s0 s -> rule_inv s0 (with_counters a b c d s).
Proof. intros (I & LT & H). split; [exact I|]. split; [destruct LT; constructor; assumption|]. apply P_counters, H. Qed.

Lemma rule_sims s0 N cu (sims : oracle -> problem -> tree Z -> list Z -> (list Z -> op -> Z -> M bool) -> M unit) (bound : heap Z -> nat) :
  cu = compute_cant_use (p_target_counts p) (t_source_values t) -> In t (explored p (s_log s0)) ->
  (forall h (J : nat -> state -> Prop) (X : exn -> state -> Prop) (yield_ : list Z -> op -> Z -> M bool), good p h t N ->
     (forall n m s, (n <= m)%nat -> J n s -> J m s) ->
     (forall n a b c d s, J n s -> J n (with_counters a b c d s)) ->
     (forall sim o cost n s, candidate p h t cu sim o cost -> J n s -> t_size t + cost <= s_best_size s ->
        wp (yield_ sim o cost) (fun _ s' => J (S n) s' /\ (s_best_size s' = s_best_size s \/ s_best_size s' = t_size t + cost)) X s) ->
     forall n s, s_heap s = h -> J n s -> wp (sims R p t cu yield_) (fun _ s' => J (n + bound h)%nat s') X s) ->
  good p (s_heap s0) t N ->
  forall s, rule_inv s0 s -> wp (try_op R p (sims R p) t cu) (fun _ s' => rule_inv s0 s') (fun _ _ => False) s.
Proof.
  intros EC It HS G0 s HJ. unfold try_op. apply wp_bind.
  pose proof (good_extends p _ _ t N (la_heap _ _ (proj1 (proj2 HJ))) G0) as G1.
  eapply wp_conseq; [|refine (HS (s_heap s) (fun _ s' => rule_inv s0 s' /\ later s s') (fun _ _ => False) (try_body R p t) G1 _ _ _ O s eq_refl _)].
  - intros _ s' [HJ' _]. apply wp_solving. intros b. apply rule_counters, HJ'.
  - auto.
  - intros _ a b c d s1 [H1 H2]. split; [apply rule_counters, H1|]. destruct H2. constructor; assumption.
  - apply (rule_yield s0 s N cu EC It G1).
  - split; [exact HJ|apply later_refl].
Qed.

Lemma rule_explore s0 : Inv p s0 -> In t (explored p (s_log s0)) -> P s0 ->
  wp (explore R p t) (fun _ s' => rule_inv s0 s') (fun _ _ => False) s0.
Proof.
  intros I0 It HP. pose proof (iv_good _ _ _ _ _ _ _ _ I0) as GD. rewrite Forall_forall in GD. destruct (GD t It) as [N G].
  pose proof (gd_wf _ _ _ _ G) as W.
  unfold explore. apply wp_bind, wp_gets.
  set (cu := compute_cant_use (p_target_counts p) (node_values (s_heap s0) (t_sources t))).
  assert (EC : cu = compute_cant_use (p_target_counts p) (t_source_values t)) by (unfold cu; rewrite (wf_values _ _ _ W); reflexivity).
  assert (J0 : rule_inv s0 s0) by (split; [exact I0|]; split; [apply later_refl|exact HP]).
  assert (NE : t_source_values t <> []).
  { intros E. pose proof (gd_total _ _ _ _ G) as T. rewrite E in T. cbn in T. pose proof (lf_pos p F) as PO. pose proof (lf_nonempty p F) as NS.
    destruct (p_sources p) as [|x l]; [congruence|]. rewrite zsum_cons in T. inversion PO; subst.
    assert (0 <= zsum l) by (apply zsum_nonneg; assumption). lia. }
  destruct (zmax (t_source_values t)) as [top|] eqn:EM. 2: { destruct (t_source_values t); [congruence|discriminate]. }
  assert (XE : forall s, rule_inv s0 s -> wp (try_op R p (extract_sims R p) t cu) (fun _ s' => rule_inv s0 s') (fun _ _ => False) s).
  { apply (rule_sims s0 N cu extract_sims (fun h => length (extract_candidates h t)) EC It); [|exact G].
    intros h J X y Gh M1 M2 Y n s EH HJ. apply (extract_sims_ok p h t N cu (gd_wf _ _ _ _ Gh) J X y M1 M2 Y R n s EH HJ). }
  assert (XD : forall s, rule_inv s0 s -> wp (try_op R p (divide_sims R p) t cu) (fun _ s' => rule_inv s0 s') (fun _ _ => False) s).
  { apply (rule_sims s0 N cu divide_sims (fun h => length (divide_candidates h t)) EC It); [|exact G].
    intros h J X y Gh M1 M2 Y n s EH HJ. apply (divide_sims_ok p h t N cu (gd_wf _ _ _ _ Gh) J X y M1 M2 Y R n s EH HJ). }
  assert (XS : forall s, rule_inv s0 s -> wp (try_op R p (split_sims R p) t cu) (fun _ s' => rule_inv s0 s') (fun _ _ => False) s).
  { apply (rule_sims s0 N cu split_sims (fun h => length (t_sources t)) EC It); [|exact G].
    intros h J X y Gh M1 M2 Y n s EH HJ. apply (split_sims_ok p (lf_gcd p F) h t N cu (gd_wf _ _ _ _ Gh) J X y M1 M2 Y R n s EH HJ). }
  assert (XM : forall s, rule_inv s0 s -> wp (try_op R p (merge_sims R p) t cu) (fun _ s' => rule_inv s0 s') (fun _ _ => False) s).
  { apply (rule_sims s0 N cu merge_sims (fun h => (2 ^ length (t_sources t) * length (t_sources t))%nat) EC It); [|exact G].
    intros h J X y Gh M1 M2 Y n s EH HJ. apply (merge_sims_ok p h t N cu (gd_wf _ _ _ _ Gh) (gd_count _ _ _ _ Gh) J X y M1 M2 Y R n s EH HJ). }
  destruct (top <=? p_min_target p); [apply XM, J0|].
  apply wp_bind. eapply wp_conseq; [|apply XE, J0]. intros b1 s1 J1. cbn beta in J1. destruct (negb b1); [apply wp_ret, J1|].
  apply wp_bind. eapply wp_conseq; [|apply XD, J1]. intros b2 s2 J2. cbn beta in J2. destruct (negb b2); [apply wp_ret, J2|].
  apply wp_bind. eapply wp_conseq; [|apply XS, J2]. intros b3 s3 J3. cbn beta in J3. destruct (negb b3); [apply wp_ret, J3|].
  destruct (t_n_sources t =? 1); [apply wp_ret, J3|]. apply XM, J3.
Qed.
End Explore.

Lemma rule_loop : forall fuel s, Inv p s -> P s -> wp (solve_loop R p fuel) (fun _ s' => P s') (fun _ s' => P s') s.
Proof.
  induction fuel as [|fuel IH]; intros s I HP.
  - exact HP.
  - cbn [solve_loop]. apply wp_bind, wp_solving. intros b. set (s1 := with_counters _ _ _ _ s).
    assert (I1 : Inv p s1) by exact I. assert (HP1 : P s1) by apply P_counters, HP.
    destruct (negb b); [apply wp_ret; auto|]. apply wp_bind, wp_gets. change (s_queue s1) with (s_queue s).
    destruct (s_queue s) as [|e0 q0] eqn:EQ; [apply wp_ret; auto|].
    assert (NE : s_queue s1 <> []) by (change (s_queue s1) with (s_queue s); rewrite EQ; discriminate).
    apply wp_bind. unfold wp at 1. destruct (dequeue_cases R s1 NE) as [(r & E & NN)|(r & c & k & x & E & EN & _)]; rewrite E.
    + apply P_counters, HP1.
    + set (q := s_queue s1) in *. set (s2 := with_counters r _ c _ _). pose proof (pop_split _ _ _ EN) as SP.
      assert (I2 : Inv p s2).
      { unfold Inv. cbn [s2 with_counters with_queue s_heap s_queue s_best_size s_solutions s_solutions_count s_forced_stop s_log].
        apply (queue_sub p _ q); [|apply (sorted_pop _ k q x EN), (iv_sorted _ _ _ _ _ _ _ _ I1)|exact I1].
        intros e. rewrite SP at 3. rewrite !in_app_iff. cbn [In]. tauto. }
      assert (HP2 : P s2).
      { apply P_counters, P_queue; [|exact HP1]. change (s_queue s1) with q. intros e. rewrite SP at 3. rewrite !in_app_iff. cbn [In]. tauto. }
      pose proof (iv_queue _ _ _ _ _ _ _ _ I1) as QU. rewrite Forall_forall in QU. destruct (QU x (nth_error_In _ _ EN)) as [Ix NT].
      destruct x as [t sc]. cbn [fst] in Ix, NT. apply wp_bind. pose proof (rule_explore t NT s2 I2 Ix HP2) as EX. unfold wp in EX |- *.
      destruct (explore R p t s2) as [[go|e] s3]; [|contradiction]. destruct EX as (I3 & _ & HP3).
      destruct go; [apply (IH s3 I3 HP3)|exact HP3].
Qed.

Lemma run_rule fuel : P (snd (solve R fuel p)).
Proof.
  unfold solve, mbind. pose proof (enqueue_ok p K R (snd (initial_tree p)) (initial_state p) (initial_inv p F)) as EN. unfold wp in EN.
  pose proof P_start as HP. assert (SZ : t_size (snd (initial_tree p)) = 0) by reflexivity.
  destruct (enqueue R p (snd (initial_tree p)) (initial_state p)) as [[u|e] s1].
  - destruct EN as (I1 & _); [left; reflexivity|constructor|rewrite SZ; apply (lf_initial p F)|].
    pose proof (rule_loop fuel s1 I1 HP) as H. unfold wp in H. destruct (solve_loop R p fuel s1) as [[v|e] s2]; exact H.
  - exact HP.
Qed.
End Rule.
