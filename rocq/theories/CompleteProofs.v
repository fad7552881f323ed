(** The search misses nothing: an operation on an explored tree has been tried
    unless one of the rules of the search speaks against it. *)
From Verif Require Import Base BaseLemmas Cost CostSpec CostProofs Utils UtilsSpec UtilsProofs Fractions Load LoadSpec LoadProofs Tree TreeSpec
  Search SearchSpec HeapLemmas CopyProofs TreeInv TreeGrow TreeOps SearchGen SearchInit SearchInv SearchProofs CompleteSpec.
Open Scope Z_scope.

(** ** loops *)
Lemma wp_and {A} (m : M A) (Q1 Q2 : A -> state -> Prop) X1 X2 s : wp m Q1 X1 s -> wp m Q2 X2 s -> wp m (fun a s' => Q1 a s' /\ Q2 a s') X1 s.
Proof. unfold wp. destruct (m s) as [[a|e] s']; auto. Qed.

Lemma later_counters a b c d s : later s (with_counters a b c d s).
Proof. constructor; [apply extends_refl|exists []; reflexivity|cbn; lia]. Qed.

Section Loop.
Variables (A S : Type) (J : state -> Prop) (X : exn -> state -> Prop) (SI : S -> state -> Prop) (P : A -> state -> Prop).
Variable body : A -> S -> M (option S).
Hypothesis P_later : forall a s s', later s s' -> P a s -> P a s'.
Lemma wp_for_all l : (forall a x s, In a l -> J s -> SI x s ->
    wp (body a x) (fun o s' => J s' /\ later s s' /\ (exists x', o = Some x' /\ SI x' s') /\ P a s') X s) ->
  forall x s, J s -> SI x s ->
  wp (for_each body l x) (fun o s' => J s' /\ later s s' /\ (exists x', o = Some x' /\ SI x' s') /\ forall a, In a l -> P a s') X s.
Proof.
  induction l as [|a l IH]; intros H x s HJ HS; cbn [for_each].
  - apply wp_ret. split; [exact HJ|]. split; [apply later_refl|]. split; [exists x; auto|intros a []].
  - apply wp_bind. eapply wp_conseq; [|apply H; [left; reflexivity|exact HJ|exact HS]].
    intros o s1 (J1 & L1 & (x1 & -> & S1) & P1). eapply wp_conseq; [|apply IH; [|exact J1|exact S1]].
    + intros o2 s2 (J2 & L2 & S2 & P2). split; [exact J2|]. split; [eapply later_trans; eassumption|]. split; [exact S2|].
      intros b [<-|Hb]; [eapply P_later; eassumption|apply P2, Hb].
    + intros b y s2 Hb. apply H. right. exact Hb.
Qed.
End Loop.

Lemma enumerate_intro {A} (l : list A) i x : nth_error l i = Some x -> In (i, x) (enumerate l).
Proof.
  unfold enumerate. assert (H : forall k l i, nth_error l i = Some x -> In ((k + i)%nat, x) (combine (seq k (length l)) l)).
  { clear. intros k l. revert k. induction l as [|y l IH]; intros k [|i] E; try discriminate; cbn in *.
    - injection E as ->. left. f_equal. lia.
    - right. replace (k + S i)%nat with (S k + i)%nat by lia. apply IH, E. }
  apply (H O l i).
Qed.
Lemma chosen_in {A} (l : list A) : forall k c, In c (combinations k l) ->
  length c = k /\ (forall x, In x c -> In x l) /\ (NoDup l -> NoDup c).
Proof.
  induction l as [|x l IH]; intros [|k] c H; cbn [combinations] in H.
  - destruct H as [<-|[]]. repeat split; auto.
  - destruct H.
  - destruct H as [<-|[]]. split; [reflexivity|]. split; [intros y []|constructor].
  - apply in_app_or in H. destruct H as [H|H].
    + apply in_map_iff in H. destruct H as (c' & <- & H). apply IH in H. destruct H as (L & S & ND). split; [cbn; lia|]. split.
      * intros y [->|Hy]; [left; reflexivity|right; auto].
      * intros N0. inversion N0; subst. constructor; [intros I; apply S in I; contradiction|auto].
    + apply IH in H. destruct H as (L & S & ND). split; [exact L|]. split; [intros y Hy; right; auto|].
      intros N0. inversion N0; auto.
Qed.
Lemma combinations_filter {A} f (l : list A) : In (filter f l) (combinations (length (filter f l)) l).
Proof.
  induction l as [|x l IH]; [left; reflexivity|]. cbn [filter]. destruct (f x).
  - cbn [length combinations]. apply in_or_app. left. apply in_map, IH.
  - destruct (filter f l) as [|y r] eqn:E; [left; reflexivity|]. cbn [length combinations] in *. apply in_or_app. right. exact IH.
Qed.

(** ** what may settle an operation *)
Section Settled.
Variables (p : problem) (h : heap Z) (t : tree Z) (cu : list Z).

Definition seen_before (sim : list Z) (s : state) : Prop :=
  In sim (fl_items (t_past t)) \/
  exists u, In u (explored p (s_log s)) /\ t_source_values u = p_targets p /\ In sim (fl_items (t_past u)).

Inductive settled (o : op) (s : state) : Prop :=
| settled_cant v : In v (taken h t o) -> In v cu -> settled o s
| settled_gcd v : In v (given h t o) -> v < p_gcd p -> settled o s
| settled_cost cost : priced h t o cost -> s_best_size s < t_size t + cost -> settled o s
| settled_limit is : o = OMerge is -> 1200 < zsum (taken h t o) -> settled o s
| settled_past a v : In a (t_sources t) -> In (value h a) (taken h t o) -> In v (given h t o) -> In v (fl_items (n_past (get h a))) -> settled o s
| settled_seen sim : StronglySorted Z.le sim -> Permutation (sim ++ taken h t o) (t_source_values t ++ given h t o) -> seen_before sim s -> settled o s
| settled_tried e : In e (s_log s) -> ev_from e = t -> sensible h t (ev_op e) -> same_op h t o (ev_op e) -> settled o s.

Lemma settled_later o s s' : later s s' -> settled o s -> settled o s'.
Proof.
  intros [_ (l & EL) LB] H. destruct H as [v H1 H2|v H1 H2|c H1 H2|is H1 H2|a v H1 H2 H3 H4|sim H1 H2 H3|e H1 H2 H3 H4].
  - eapply settled_cant; eassumption.
  - eapply settled_gcd; eassumption.
  - eapply settled_cost; [eassumption|lia].
  - eapply settled_limit; eassumption.
  - eapply settled_past; eassumption.
  - eapply settled_seen; [eassumption|eassumption|]. destruct H3 as [H3|(u & U1 & U2)]; [left; exact H3|right]. exists u. split; [|exact U2].
    rewrite EL, explored_app. apply in_or_app. right. exact U1.
  - eapply settled_tried; [|eassumption|eassumption|eassumption]. rewrite EL. apply in_or_app. right. exact H1.
Qed.

Lemma same_op_given o o' : same_op h t o o' -> given h t o = given h t o'.
Proof.
  intros [P K]. unfold given. rewrite (zsum_perm _ _ P). destruct o, o'; try contradiction; subst; reflexivity.
Qed.
Lemma same_op_sym o o' : same_op h t o o' -> same_op h t o' o.
Proof. intros [P K]. split; [symmetry; exact P|]. destruct o, o'; auto. Qed.
Lemma same_op_trans o o' o'' : same_op h t o o' -> same_op h t o' o'' -> same_op h t o o''.
Proof. intros [P K] [P' K']. split; [rewrite P; exact P'|]. destruct o, o', o''; try contradiction; congruence. Qed.
Lemma same_op_priced o o' cost : same_op h t o o' -> priced h t o cost -> priced h t o' cost.
Proof.
  intros [P K]. pose proof (Permutation_length P) as LP. unfold taken in LP. rewrite !map_length in LP.
  unfold priced. rewrite (zsum_perm _ _ P). destruct o, o'; try contradiction; subst; auto. cbn [op_nodes] in LP. rewrite !map_length in LP. rewrite LP. auto.
Qed.
Lemma settled_same o o' s : same_op h t o o' -> settled o s -> settled o' s.
Proof.
  intros SO H. pose proof (proj1 SO) as P. pose proof (same_op_given o o' SO) as G.
  destruct H as [v H1 H2|v H1 H2|c H1 H2|is H1 H2|a v H1 H2 H3 H4|sim H1 H2 H3|e H1 H2 H3 H4].
  - apply settled_cant with v; [apply (Permutation_in _ P H1)|exact H2].
  - apply settled_gcd with v; [rewrite <- G; exact H1|exact H2].
  - apply settled_cost with c; [apply (same_op_priced o o' c SO H1)|exact H2].
  - destruct o' as [i c|i d|i c|is']; subst o; try (destruct SO as [_ []]). apply settled_limit with is'; [reflexivity|]. rewrite <- (zsum_perm _ _ P). exact H2.
  - apply settled_past with a v; [exact H1|apply (Permutation_in _ P H2)|rewrite <- G; exact H3|exact H4].
  - apply settled_seen with sim; [exact H1| |exact H3]. rewrite <- P, <- G. exact H2.
  - apply settled_tried with e; [exact H1|exact H2|exact H3|]. apply same_op_trans with o; [apply same_op_sym, SO|exact H4].
Qed.

(** ** the generators *)
Variable N : nat -> Prop.
Hypothesis gcd_pos : 0 < p_gcd p.
Hypothesis W : wf h t N.
Hypothesis CNT : t_n_sources t = Z.of_nat (length (t_sources t)).
Variable R : oracle.
Hypothesis NS : o_stop R = None.
Variable J : state -> Prop.
Variable X : exn -> state -> Prop.
Variable yield_ : list Z -> op -> Z -> M bool.
Hypothesis J_counters : forall a b c d s, J s -> J (with_counters a b c d s).
Hypothesis J_forced : forall s, J s -> s_forced_stop s = false.
Hypothesis J_sols : forall s u, J s -> In u (s_solutions s) -> In u (explored p (s_log s)) /\ t_source_values u = p_targets p /\ fl_inv (t_past u).
Hypothesis J_yield : forall sim o cost s, candidate p h t cu sim o cost -> J s -> t_size t + cost <= s_best_size s ->
  wp (yield_ sim o cost) (fun go s' => go = true /\ J s' /\ later s s' /\ (exists e, In e (s_log s') /\ ev_from e = t /\ ev_op e = o) /\
    (s_best_size s' = s_best_size s \/ s_best_size s' = t_size t + cost)) X s.

Lemma wp_read (Q : bool -> state -> Prop) s : J s ->
  (forall s1, J s1 -> later s s1 -> s_best_size s1 = s_best_size s -> Q true s1) -> wp (read_solving R) Q X s.
Proof.
  intros HJ H. unfold wp, read_solving. rewrite (J_forced s HJ), NS. cbn [negb andb]. apply H; [apply J_counters, HJ|apply later_counters|reflexivity].
Qed.
Lemma same_refl o : same_op h t o o.
Proof. split; [reflexivity|]. destruct o; auto. Qed.
Lemma wp_unseen sim (Q : bool -> state -> Prop) s : J s -> (seen_before sim s -> Q true s) -> (~ In sim (fl_items (t_past t)) -> Q false s) ->
  wp (already_seen t sim) Q X s.
Proof.
  intros HJ HT HF. unfold wp, already_seen, gets.
  destruct (fl_contains tuple_eqb sim (t_past t)) eqn:E1.
  - cbn [orb]. apply HT. left. apply (fl_contains_in tuple_eqb tuple_Z_decides sim _ (wf_tpast _ _ _ W)), E1.
  - cbn [orb]. destruct (existsb _ (s_solutions s)) eqn:E2.
    + apply HT. right. apply existsb_exists in E2. destruct E2 as (u & Iu & E2). destruct (J_sols s u HJ Iu) as (U1 & U2 & U3). exists u.
      split; [exact U1|]. split; [exact U2|]. apply (fl_contains_in tuple_eqb tuple_Z_decides sim _ U3), E2.
    + apply HF. intros I. apply (fl_contains_in tuple_eqb tuple_Z_decides sim _ (wf_tpast _ _ _ W)) in I. congruence.
Qed.
Lemma in_past v a : In a (t_sources t) -> fl_contains Z.eqb v (n_past (get h a)) = true -> In v (fl_items (n_past (get h a))).
Proof.
  intros Ia E. destruct (source_facts h t N a W Ia) as (_ & _ & _ & _ & FP & _). apply (fl_contains_in Z.eqb Z_eq_decides v _ FP), E.
Qed.

(** one settled source settles all sources of the same flow *)
Definition all_settled (make : nat -> op) (v : Z) (s : state) : Prop :=
  forall i a, nth_error (t_sources t) i = Some a -> value h a = v -> settled (make i) s.
Lemma settle_all (make : nat -> op) i a s : (forall j, match make j with OExtract k _ | ODivide k _ | OSplit k _ => k = j | OMerge _ => False end) ->
  (forall j k, match make j, make k with
     | OExtract _ c, OExtract _ c' => c = c' | ODivide _ c, ODivide _ c' => c = c' | OSplit _ c, OSplit _ c' => c = c' | _, _ => False end) ->
  nth_error (t_sources t) i = Some a -> settled (make i) s -> all_settled make (value h a) s.
Proof.
  intros H1 H2 E H j b Eb V. apply (settled_same (make i)); [|exact H].
  destruct (taken_one h t N W i a E (make i) (H1 i)) as (_ & T1 & _). destruct (taken_one h t N W j b Eb (make j) (H1 j)) as (_ & T2 & _).
  split; [rewrite T1, T2, V; reflexivity|]. specialize (H2 i j). destruct (make i), (make j); auto.
Qed.

Definition seen_settled (make : Z -> nat -> op) (seen : list (Z * Z)) (s : state) : Prop :=
  forall v c, In (v, c) seen -> all_settled (make c) v s.
Lemma pair_mem_in a b l : pair_mem a b l = true -> In (a, b) l.
Proof.
  unfold pair_mem. intros E. apply existsb_exists in E. destruct E as ([x y] & I & E). cbn [fst snd] in E. apply andb_true_iff in E.
  destruct E as [E1 E2]. apply Z.eqb_eq in E1, E2. subst. exact I.
Qed.
Lemma seen_later make seen s s' : later s s' -> seen_settled make seen s -> seen_settled make seen s'.
Proof. intros L H v c I i a E V. eapply settled_later; [exact L|]. apply (H v c I i a E V). Qed.
Lemma seen_cons make seen v c s : seen_settled make seen s -> all_settled (make c) v s -> seen_settled make ((v, c) :: seen) s.
Proof. intros H H1 v0 c0 [[= <- <-]|I]; [exact H1|apply H, I]. Qed.

Lemma extract_all s : s_heap s = h -> J s ->
  wp (extract_sims R p t cu yield_) (fun _ s' => J s' /\ later s s' /\
    forall i a c, nth_error (t_sources t) i = Some a -> 0 < c -> 2 * c < value h a -> settled (OExtract i c) s') X s.
Proof.
  intros EH HJ0. unfold extract_sims. apply wp_bind, wp_gets. rewrite EH. apply wp_bind.
  eapply wp_conseq; [|apply (wp_for_all _ _ J X (seen_settled (fun c i => OExtract i c)) (fun (x : nat * nat * Z) s => settled (OExtract (fst (fst x)) (snd x)) s))].
  { intros oo s' (J' & L' & _ & H). apply wp_ret. split; [exact J'|]. split; [exact L'|]. intros i a c E C1 C2.
    apply (H (i, a, c)). unfold extract_candidates. apply in_flat_map. exists (i, a). split; [apply enumerate_intro, E|].
    cbn [fst snd]. apply in_map_iff. exists c. split; [reflexivity|]. apply zrange_in. change (n_value (get h a)) with (value h a).
    assert (c <= (value h a - 1) / 2) by (apply Z.div_le_lower_bound; lia). lia. }
  { intros x s1 s2 L. apply settled_later, L. }
  2: exact HJ0. 2: intros v c [].
  clear s EH HJ0. intros [[i a] c] seen s I HJ HS. cbn [fst snd].
  unfold extract_candidates in I. apply in_flat_map in I. destruct I as ([i' a'] & I1 & I2). cbn [fst snd] in I2.
  apply in_map_iff in I2. destruct I2 as (c' & [= -> -> ->] & I2). apply zrange_in in I2. apply enumerate_in in I1.
  change (n_value (get h a)) with (value h a) in *.
  destruct (source_value h t N W i a I1) as (Bi & EN & Ia & Iv & FP & PV & Na).
  destruct (taken_one h t N W i a I1 (OExtract i c) eq_refl) as (ON & TK & ZS).
  assert (SE : sensible h t (OExtract i c)). { cbn [sensible]. rewrite ZS. repeat split; try assumption; try lia. }
  assert (GV : given h t (OExtract i c) = [c; value h a - c]) by (unfold given; rewrite ZS; reflexivity).
  assert (IT : In (value h a) (taken h t (OExtract i c))) by (rewrite TK; left; reflexivity).
  apply wp_bind, wp_read; [exact HJ|]. clear HJ. intros s1 HJ L1 B1. cbn [negb].
  apply (seen_later _ _ _ _ L1) in HS.
  destruct (pair_mem _ _ _) eqn:EM.
  { apply wp_ret. split; [exact HJ|]. split; [exact L1|]. split; [exists seen; auto|]. apply pair_mem_in in EM. apply (HS _ _ EM i a I1 eq_refl). }
  assert (SK : settled (OExtract i c) s1 -> wp (ret (Some ((value h a, c) :: seen))) (fun o s' => J s' /\ later s s' /\
    (exists x', o = Some x' /\ seen_settled (fun c i => OExtract i c) x' s') /\ settled (OExtract i c) s') X s1).
  { intros H. apply wp_ret. split; [exact HJ|]. split; [exact L1|]. split; [|exact H]. eexists. split; [reflexivity|]. apply seen_cons; [exact HS|].
    apply (settle_all (fun i => OExtract i c) i); [reflexivity|reflexivity|exact I1|exact H]. }
  destruct (zmem (value h a) cu) eqn:EC. { apply SK. apply settled_cant with (value h a); [exact IT|apply zmem_in, EC]. }
  unfold gcd_incompatible. destruct (c <? p_gcd p) eqn:G1. { apply SK. apply settled_gcd with c; [rewrite GV; left; reflexivity|lia]. }
  assert (B2 : 0 < c < value h a /\ 3 <= value h a /\ c < value h a - c).
  { assert (2 * ((value h a - 1) / 2) <= value h a - 1) by (apply Z.mul_div_le; lia). lia. }
  destruct (extract_cost_pos (value h a) c) as (cost & EK & _); [lia|lia|].
  assert (PR : priced h t (OExtract i c) cost) by (cbn [priced]; rewrite ZS; exact EK).
  apply wp_bind. eapply wp_lift; [exact EK|]. apply wp_bind, wp_gets.
  destruct (t_size t + cost >? s_best_size s1) eqn:EB. { apply SK. apply settled_cost with cost; [exact PR|lia]. }
  destruct (value h a - c =? c) eqn:ED; [exfalso; lia|].
  destruct (value h a - c <? p_gcd p) eqn:G2. { apply SK. apply settled_gcd with (value h a - c); [rewrite GV; right; left; reflexivity|lia]. }
  destruct (fl_contains Z.eqb c (n_past (get h a)) || fl_contains Z.eqb (value h a - c) (n_past (get h a))) eqn:EP.
  { apply SK. apply orb_true_iff in EP. destruct EP as [EP|EP]; apply in_past in EP; try exact Ia.
    - apply settled_past with a c; [exact Ia|exact IT|rewrite GV; left; reflexivity|exact EP].
    - apply settled_past with a (value h a - c); [exact Ia|exact IT|rewrite GV; right; left; reflexivity|exact EP]. }
  apply orb_false_iff in EP. destruct EP as [EP1 EP2].
  destruct (one_source_sim h t N W i a [c; value h a - c] I1) as (sim & ES & PS).
  apply wp_bind. eapply wp_lift; [exact ES|].
  set (sim' := insort (value h a - c) (insort c sim)) in *.
  assert (P' : Permutation sim' ([c; value h a - c] ++ sim)).
  { unfold sim'. rewrite insort_z_perm, insort_z_perm. apply perm_swap. }
  assert (SO : StronglySorted Z.le sim') by (unfold sim'; apply insort_z_sorted, insort_z_sorted, (sim_sorted h t N W i a sim I1 ES)).
  assert (PF : Permutation (sim' ++ taken h t (OExtract i c)) (t_source_values t ++ given h t (OExtract i c))) by (rewrite GV, TK; apply PS, P').
  apply wp_bind. apply wp_unseen; [exact HJ|intros SB; apply SK, settled_seen with sim'; assumption|]. intros NEW. apply wp_bind.
  eapply wp_conseq; [|apply (J_yield sim' (OExtract i c) cost s1); [|exact HJ|lia]].
  - intros go s' (-> & J2 & L2 & (e & E1 & E2 & E3) & _). apply wp_ret. split; [exact J2|]. split; [eapply later_trans; eassumption|].
    assert (ST : settled (OExtract i c) s') by (apply settled_tried with e; [exact E1|exact E2|rewrite E3; exact SE|rewrite E3; apply same_refl]).
    split; [|exact ST]. eexists. split; [reflexivity|]. apply seen_cons; [apply (seen_later _ _ _ _ L2 HS)|].
    apply (settle_all (fun i => OExtract i c) i); [reflexivity|reflexivity|exact I1|exact ST].
  - constructor; try assumption.
    + intros is E. discriminate.
    + intros i0 c0 [= <- <-]. rewrite TK. cbn [zsum fold_right]. lia.
    + rewrite ON, GV. intros x v [<-|[]] Hv. cbn in Hv. destruct Hv as [<-|[<-|[]]]; apply not_contains; assumption.
    + rewrite GV. intros v Hv. cbn in Hv. destruct Hv as [<-|[<-|[]]]; lia.
    + rewrite TK. intros v [<-|[]]. apply zmem_out, EC.
Qed.

Lemma divide_all s : s_heap s = h -> J s ->
  wp (divide_sims R p t cu yield_) (fun _ s' => J s' /\ later s s' /\
    forall i a d, nth_error (t_sources t) i = Some a -> 2 <= d -> (d | value h a) -> settled (ODivide i d) s') X s.
Proof.
  intros EH HJ0. unfold divide_sims. apply wp_bind, wp_gets. rewrite EH. apply wp_bind.
  eapply wp_conseq; [|apply (wp_for_all _ _ J X (seen_settled (fun d i => ODivide i d)) (fun (x : nat * nat * Z) s => settled (ODivide (fst (fst x)) (snd x)) s))].
  { intros oo s' (J' & L' & _ & H). apply wp_ret. split; [exact J'|]. split; [exact L'|]. intros i a d E D1 D2.
    destruct (source_value h t N W i a E) as (_ & _ & _ & _ & _ & PV & _).
    apply (H (i, a, d)). unfold divide_candidates. apply in_flat_map. exists (i, a). split; [apply enumerate_intro, E|].
    cbn [fst snd]. apply in_map_iff. exists d. split; [reflexivity|]. apply filter_In. change (n_value (get h a)) with (value h a).
    split; [|apply Z.eqb_eq, Z.mod_divide; [lia|exact D2]]. apply zrange_in. apply Z.divide_pos_le in D2; lia. }
  { intros x s1 s2 L. apply settled_later, L. }
  2: exact HJ0. 2: intros v c [].
  clear s EH HJ0. intros [[i a] d] seen s I HJ HS. cbn [fst snd].
  unfold divide_candidates in I. apply in_flat_map in I. destruct I as ([i' a'] & I1 & I2). cbn [fst snd] in I2.
  change (n_value (get h a')) with (value h a') in I2.
  apply in_map_iff in I2. destruct I2 as (d' & [= -> -> ->] & I2). apply filter_In in I2. destruct I2 as [I2 DV].
  apply zrange_in in I2. apply enumerate_in in I1. change (n_value (get h a)) with (value h a) in *.
  destruct (source_value h t N W i a I1) as (Bi & EN & Ia & Iv & FP & PV & Na).
  assert (DIV : (d | value h a)) by (apply Z.mod_divide; lia).
  destruct (taken_one h t N W i a I1 (ODivide i d) eq_refl) as (ON & TK & ZS).
  assert (SE : sensible h t (ODivide i d)). { cbn [sensible]. rewrite ZS. repeat split; try assumption; try lia. }
  assert (GV : given h t (ODivide i d) = repeat (value h a / d) (Z.to_nat d)) by (unfold given; rewrite ZS; reflexivity).
  assert (GI : In (value h a / d) (given h t (ODivide i d))).
  { rewrite GV. replace (Z.to_nat d) with (S (Z.to_nat (d - 1))) by lia. left. reflexivity. }
  assert (IT : In (value h a) (taken h t (ODivide i d))) by (rewrite TK; left; reflexivity).
  apply wp_bind, wp_read; [exact HJ|]. clear HJ. intros s1 HJ L1 B1. cbn [negb].
  apply (seen_later _ _ _ _ L1) in HS.
  destruct (pair_mem _ _ _) eqn:EM.
  { apply wp_ret. split; [exact HJ|]. split; [exact L1|]. split; [exists seen; auto|]. apply pair_mem_in in EM. apply (HS _ _ EM i a I1 eq_refl). }
  assert (SK : settled (ODivide i d) s1 -> wp (ret (Some ((value h a, d) :: seen))) (fun o s' => J s' /\ later s s' /\
    (exists x', o = Some x' /\ seen_settled (fun d i => ODivide i d) x' s') /\ settled (ODivide i d) s') X s1).
  { intros H. apply wp_ret. split; [exact HJ|]. split; [exact L1|]. split; [|exact H]. eexists. split; [reflexivity|]. apply seen_cons; [exact HS|].
    apply (settle_all (fun i => ODivide i d) i); [reflexivity|reflexivity|exact I1|exact H]. }
  destruct (zmem (value h a) cu) eqn:EC. { apply SK. apply settled_cant with (value h a); [exact IT|apply zmem_in, EC]. }
  destruct (divide_cost_pos (value h a) d) as (cost & EK & _); [lia|lia|exact DIV|].
  assert (PR : priced h t (ODivide i d) cost) by (cbn [priced]; rewrite ZS; exact EK).
  apply wp_bind. eapply wp_lift; [exact EK|]. apply wp_bind, wp_gets.
  destruct (t_size t + cost >? s_best_size s1) eqn:EB. { apply SK. apply settled_cost with cost; [exact PR|lia]. }
  unfold gcd_incompatible.
  destruct (fl_contains Z.eqb (value h a / d) (n_past (get h a)) || (value h a / d <? p_gcd p)) eqn:EP.
  { apply SK. apply orb_true_iff in EP. destruct EP as [EP|EP].
    - apply in_past in EP; [|exact Ia]. apply settled_past with a (value h a / d); assumption.
    - apply settled_gcd with (value h a / d); [exact GI|lia]. }
  apply orb_false_iff in EP. destruct EP as [EP1 EP2].
  destruct (one_source_sim h t N W i a (repeat (value h a / d) (Z.to_nat d)) I1) as (sim & ES & PS).
  apply wp_bind. eapply wp_lift; [exact ES|].
  set (sim' := Nat.iter (Z.to_nat d) (insort (value h a / d)) sim) in *.
  assert (SO : StronglySorted Z.le sim') by (apply iter_insort_sorted, (sim_sorted h t N W i a sim I1 ES)).
  assert (PF : Permutation (sim' ++ taken h t (ODivide i d)) (t_source_values t ++ given h t (ODivide i d))) by (rewrite GV, TK; apply PS, iter_insort_perm).
  apply wp_bind. apply wp_unseen; [exact HJ|intros SB; apply SK, settled_seen with sim'; assumption|]. intros NEW. apply wp_bind.
  eapply wp_conseq; [|apply (J_yield sim' (ODivide i d) cost s1); [|exact HJ|lia]].
  - intros go s' (-> & J2 & L2 & (e & E1 & E2 & E3) & _). apply wp_ret. split; [exact J2|]. split; [eapply later_trans; eassumption|].
    assert (ST : settled (ODivide i d) s') by (apply settled_tried with e; [exact E1|exact E2|rewrite E3; exact SE|rewrite E3; apply same_refl]).
    split; [|exact ST]. eexists. split; [reflexivity|]. apply seen_cons; [apply (seen_later _ _ _ _ L2 HS)|].
    apply (settle_all (fun i => ODivide i d) i); [reflexivity|reflexivity|exact I1|exact ST].
  - constructor; try assumption.
    + intros is E. discriminate.
    + discriminate.
    + rewrite ON, GV. intros x v [<-|[]] Hv. apply repeat_spec in Hv. subst v. apply not_contains; assumption.
    + rewrite GV. intros v Hv. apply repeat_spec in Hv. subst v. lia.
    + rewrite TK. intros v [<-|[]]. apply zmem_out, EC.
Qed.

(** the slowest belt that is faster than the flow *)
Definition next_belt (v c : Z) : Prop :=
  In c [60; 120; 270; 480; 780; 1200] /\ v < c /\ forall c', In c' [60; 120; 270; 480; 780; 1200] -> v < c' -> c <= c'.
Lemma find_next v : match find (fun c => c >? v) conveyor_speeds with
  | Some c => next_belt v c
  | None => forall c, In c [60; 120; 270; 480; 780; 1200] -> c <= v
  end.
Proof.
  unfold conveyor_speeds, next_belt. cbn [find]. 
  repeat (match goal with |- context [?c >? v] => destruct (c >? v) eqn:? end;
    [split; [cbn; tauto|]; split; [lia|]; intros c' Hc' L; cbn in Hc'; lia|]).
  intros c Hc. cbn in Hc. lia.
Qed.
Lemma next_unique v c c' : next_belt v c -> next_belt v c' -> c = c'.
Proof. intros (I & L & M) (I' & L' & M'). specialize (M _ I' L'). specialize (M' _ I L). lia. Qed.

Definition split_settled (v : Z) (s : state) : Prop :=
  forall c, next_belt v c -> 2 * (c / 3) < v -> all_settled (fun i => OSplit i c) v s.
Lemma split_later v s s' : later s s' -> split_settled v s -> split_settled v s'.
Proof. intros L H c B C i a E V. eapply settled_later; [exact L|]. apply (H c B C i a E V). Qed.

Lemma split_all s : s_heap s = h -> J s ->
  wp (split_sims R p t cu yield_) (fun _ s' => J s' /\ later s s' /\
    forall i a c, nth_error (t_sources t) i = Some a -> next_belt (value h a) c -> 2 * (c / 3) < value h a -> settled (OSplit i c) s') X s.
Proof.
  intros EH HJ0. unfold split_sims. apply wp_bind, wp_gets. rewrite EH. apply wp_bind, wp_gets.
  destruct (t_size t + split_cost >? s_best_size s) eqn:EB.
  { apply wp_ret. split; [exact HJ0|]. split; [apply later_refl|]. intros i a c E B C. apply settled_cost with split_cost; [reflexivity|lia]. }
  apply wp_bind.
  set (J' := fun s => J s /\ t_size t + split_cost <= s_best_size s).
  eapply wp_conseq; [|apply (wp_for_all _ _ J' X (fun seen s => forall v, In v seen -> split_settled v s) (fun (x : nat * nat) s => split_settled (value h (snd x)) s))].
  { intros oo s' ([JJ _] & L' & _ & H). apply wp_ret. split; [exact JJ|]. split; [exact L'|]. intros i a c E B C.
    apply (H (i, a) (enumerate_intro _ _ _ E) c B C i a E eq_refl). }
  { intros x s1 s2 L. apply split_later, L. }
  2: { split; [exact HJ0|lia]. } 2: { intros v []. }
  clear s EH HJ0 EB. intros [i a] seen s I [HJ HB] HS. cbn [snd]. apply enumerate_in in I. change (n_value (get h a)) with (value h a) in *.
  destruct (source_value h t N W i a I) as (Bi & EN & Ia & Iv & FP & PV & Na).
  apply wp_bind, wp_read; [exact HJ|]. clear HJ. intros s1 HJ L1 B1. cbn [negb]. rewrite <- B1 in HB. clear B1.
  assert (HS1 : forall v, In v seen -> split_settled v s1) by (intros v Hv; apply (split_later _ _ _ L1), HS, Hv). clear HS.
  destruct (zmem (value h a) seen) eqn:EM.
  { apply wp_ret. split; [split; [exact HJ|exact HB]|]. split; [exact L1|]. split; [exists seen; auto|]. apply HS1, zmem_in, EM. }
  assert (SK : split_settled (value h a) s1 -> wp (ret (Some (value h a :: seen))) (fun o s' => J' s' /\ later s s' /\
    (exists x', o = Some x' /\ forall v, In v x' -> split_settled v s') /\ split_settled (value h a) s') X s1).
  { intros H. apply wp_ret. split; [split; [exact HJ|exact HB]|]. split; [exact L1|]. split; [|exact H]. eexists. split; [reflexivity|].
    intros v [<-|Hv]; [exact H|apply HS1, Hv]. }
  assert (ONE : forall s2 c, next_belt (value h a) c -> settled (OSplit i c) s2 -> split_settled (value h a) s2).
  { intros s2 c B H c' B' _. rewrite (next_unique _ _ _ B' B). apply (settle_all (fun i => OSplit i c) i); [reflexivity|reflexivity|exact I|exact H]. }
  assert (TK : forall c, op_nodes t (OSplit i c) = [a] /\ taken h t (OSplit i c) = [value h a] /\ zsum (taken h t (OSplit i c)) = value h a).
  { intros c. apply (taken_one h t N W i a I (OSplit i c) eq_refl). }
  pose proof (find_next (value h a)) as FN.
  destruct (zmem (value h a) cu) eqn:EC.
  { apply SK. intros c B C i' a' E V. apply settled_cant with (value h a); [|apply zmem_in, EC].
    destruct (taken_one h t N W i' a' E (OSplit i' c) eq_refl) as (_ & -> & _). left. exact V. }
  destruct (find _ conveyor_speeds) as [c|]. 2: { apply SK. intros c (B1 & B2 & _) _. specialize (FN c B1). exfalso. lia. }
  destruct (TK c) as (ON & TK1 & ZS). clear TK.
  assert (IT : In (value h a) (taken h t (OSplit i c))) by (rewrite TK1; left; reflexivity).
  assert (GV : given h t (OSplit i c) = [c / 3; c / 3; value h a - 2 * (c / 3)]) by (unfold given; rewrite ZS; reflexivity).
  assert (ICP : 0 < c) by (destruct FN as (IC & _); cbn in IC; lia).
  destruct (c =? 0) eqn:E0; [exfalso; lia|]. rewrite Z.shiftl_mul_pow2 by lia. change (2 ^ 1) with 2. replace (c / 3 * 2) with (2 * (c / 3)) by lia.
  destruct (value h a <? 2 * (c / 3)) eqn:EV. { apply SK. intros c' B' C'. rewrite (next_unique _ _ _ B' FN) in C'. exfalso. lia. }
  unfold gcd_incompatible.
  destruct ((c / 3 <? p_gcd p) || (value h a - 2 * (c / 3) <? p_gcd p)) eqn:EG.
  { apply SK, (ONE _ c FN). apply orb_true_iff in EG. destruct EG as [EG|EG].
    - apply settled_gcd with (c / 3); [rewrite GV; left; reflexivity|lia].
    - apply settled_gcd with (value h a - 2 * (c / 3)); [rewrite GV; right; right; left; reflexivity|lia]. }
  apply orb_false_iff in EG. destruct EG as [G1 G2].
  destruct (fl_contains Z.eqb (c / 3) (n_past (get h a)) || fl_contains Z.eqb (value h a - 2 * (c / 3)) (n_past (get h a))) eqn:EP.
  { apply SK, (ONE _ c FN). apply orb_true_iff in EP. destruct EP as [EP|EP]; apply in_past in EP; try exact Ia.
    - apply settled_past with a (c / 3); [exact Ia|exact IT|rewrite GV; left; reflexivity|exact EP].
    - apply settled_past with a (value h a - 2 * (c / 3)); [exact Ia|exact IT|rewrite GV; right; right; left; reflexivity|exact EP]. }
  apply orb_false_iff in EP. destruct EP as [EP1 EP2].
  assert (SE : sensible h t (OSplit i c)). { cbn [sensible]. rewrite ZS. destruct FN as (FN1 & FN2 & _). repeat split; try assumption; try lia. }
  destruct (one_source_sim h t N W i a [c / 3; c / 3; value h a - 2 * (c / 3)] I) as (sim & ES & PS).
  apply wp_bind. eapply wp_lift; [exact ES|].
  set (sim' := insort (value h a - 2 * (c / 3)) (insort (c / 3) (insort (c / 3) sim))) in *.
  assert (SO : StronglySorted Z.le sim') by (apply insort_z_sorted, insort_z_sorted, insort_z_sorted, (sim_sorted h t N W i a sim I ES)).
  assert (PF : Permutation (sim' ++ taken h t (OSplit i c)) (t_source_values t ++ given h t (OSplit i c))).
  { rewrite GV, TK1. apply PS. unfold sim'. rewrite !insort_z_perm. apply (Permutation_trans (perm_swap _ _ _)). apply perm_skip, perm_swap. }
  apply wp_bind. apply wp_unseen; [exact HJ|intros SB; apply SK, (ONE _ c FN), settled_seen with sim'; assumption|]. intros NEW. apply wp_bind.
  eapply wp_conseq; [|apply (J_yield sim' (OSplit i c) split_cost s1); [|exact HJ|exact HB]].
  - intros go s' (-> & J2 & L2 & (e & E1 & E2 & E3) & HB2). apply wp_ret. split; [split; [exact J2|lia]|]. split; [eapply later_trans; eassumption|].
    assert (ST : split_settled (value h a) s') by (apply (ONE _ c FN), settled_tried with e; [exact E1|exact E2|rewrite E3; exact SE|rewrite E3; apply same_refl]).
    split; [|exact ST]. eexists. split; [reflexivity|]. intros v [<-|Hv]; [exact ST|]. apply (split_later _ _ _ L2), HS1, Hv.
  - constructor; try assumption.
    + reflexivity.
    + intros is E. discriminate.
    + discriminate.
    + rewrite ON, GV. intros x v [<-|[]] Hv. destruct Hv as [<-|[<-|[<-|[]]]]; apply not_contains; assumption.
    + rewrite GV. intros v Hv. destruct Hv as [<-|[<-|[<-|[]]]]; lia.
    + rewrite TK1. intros v [<-|[]]. apply zmem_out, EC.
Qed.

(** merging *)
Lemma merge_values is : (forall i, In i is -> (i < length (t_sources t))%nat) ->
  taken h t (OMerge is) = map (fun i => nth i (t_source_values t) 0) is.
Proof.
  intros BI. unfold taken. cbn [op_nodes]. rewrite map_map. apply map_ext_in. intros i Hi. rewrite (wf_values _ _ _ W).
  rewrite (nth_indep (map _ _) 0 (value h O)) by (rewrite map_length; apply BI, Hi). symmetry. apply map_nth.
Qed.
Definition merge_settled (vs : list Z) (s : state) : Prop :=
  forall is, (forall i, In i is -> (i < length (t_sources t))%nat) -> taken h t (OMerge is) = vs -> settled (OMerge is) s.
Lemma merge_later vs s s' : later s s' -> merge_settled vs s -> merge_settled vs s'.
Proof. intros L H is B E. eapply settled_later; [exact L|]. apply (H is B E). Qed.
Lemma merge_settle is s : settled (OMerge is) s -> merge_settled (taken h t (OMerge is)) s.
Proof. intros H is' B E. apply (settled_same (OMerge is)); [split; [rewrite E; reflexivity|exact Logic.I]|exact H]. Qed.

Lemma merge_all s : s_heap s = h -> J s ->
  wp (merge_sims R p t cu yield_) (fun _ s' => J s' /\ later s s' /\
    forall is, (2 <= length is)%nat -> NoDup is -> (forall i, In i is -> (i < length (t_sources t))%nat) -> settled (OMerge is) s') X s.
Proof.
  intros EH HJ0. unfold merge_sims. apply wp_bind, wp_gets. rewrite EH. apply wp_bind.
  rewrite CNT, Nat2Z.id. set (m := length (t_sources t)).
  eapply wp_conseq; [|apply (wp_for_all _ _ J X (fun _ _ => True) (fun k s => forall is, In is (combinations (Z.to_nat k) (seq 0 m)) -> settled (OMerge is) s))].
  { intros oo s' (J' & L' & _ & H). apply wp_ret. split; [exact J'|]. split; [exact L'|]. intros is LI ND BI.
    set (is' := filter (fun i => existsb (Nat.eqb i) is) (seq 0 m)).
    assert (PI : Permutation is is').
    { apply NoDup_Permutation; [exact ND|apply NoDup_filter, seq_NoDup|]. intros i. unfold is'. rewrite filter_In, in_seq, existsb_exists. split.
      - intros Hi. split; [split; [lia|apply BI, Hi]|]. exists i. split; [exact Hi|apply Nat.eqb_refl].
      - intros (_ & j & Hj & E). apply Nat.eqb_eq in E. subst j. exact Hj. }
    assert (LL : length is' = length is) by (symmetry; apply Permutation_length, PI).
    apply (settled_same (OMerge is')).
    { split; [|exact Logic.I]. unfold taken. cbn [op_nodes]. apply Permutation_map, Permutation_map. symmetry. exact PI. }
    apply (H (Z.of_nat (length is))).
    - apply zrange_in. split; [lia|]. assert (length is <= m)%nat; [|lia].
      rewrite <- (seq_length m 0). apply NoDup_incl_length; [exact ND|]. intros i Hi. apply in_seq. split; [lia|apply BI, Hi].
    - rewrite Nat2Z.id, <- LL. apply combinations_filter. }
  { intros k s1 s2 L H is Hi. eapply settled_later; [exact L|]. apply H, Hi. }
  2: exact HJ0. 2: exact Logic.I.
  clear s EH HJ0. intros k [] s Ik HJ0 _. apply zrange_in in Ik.
  apply wp_bind, wp_gets. destruct (t_size t + merge_cost k 1 >? s_best_size s) eqn:EB.
  { apply wp_ret. split; [exact HJ0|]. split; [apply later_refl|]. split; [exists tt; auto|]. intros is Hi. apply chosen_in in Hi. destruct Hi as (LI & _).
    apply settled_cost with (merge_cost k 1); [|lia]. cbn [priced]. rewrite LI. f_equal. lia. }
  apply wp_bind. set (J' := fun s => J s /\ t_size t + merge_cost k 1 <= s_best_size s).
  eapply wp_conseq; [|apply (wp_for_all _ _ J' X (fun seen s => forall vs, In vs seen -> merge_settled vs s) (fun is s => settled (OMerge is) s))].
  { intros o s' ([JJ _] & L' & (x' & -> & _) & H). apply wp_ret. split; [exact JJ|]. split; [exact L'|]. split; [exists tt; auto|exact H]. }
  { intros x s1 s2 L. apply settled_later, L. }
  2: { split; [exact HJ0|lia]. } 2: { intros vs []. }
  clear s HJ0 EB. intros is seen s I [HJ HB] HS. apply chosen_in in I. destruct I as (LI & SI & ND).
  specialize (ND (seq_NoDup _ _)).
  assert (BI : forall i, In i is -> (i < m)%nat) by (intros i Hi; apply SI, in_seq in Hi; lia).
  apply wp_bind, wp_read; [exact HJ|]. clear HJ. intros s1 HJ L1 B1. cbn [negb]. rewrite <- B1 in HB. clear B1.
  assert (HS1 : forall vs, In vs seen -> merge_settled vs s1) by (intros v Hv; apply (merge_later _ _ _ L1), HS, Hv). clear HS.
  assert (TK : taken h t (OMerge is) = map (fun i => nth i (t_source_values t) 0) is) by (apply merge_values, BI).
  rewrite <- TK. set (vs := taken h t (OMerge is)) in *. set (nodes := map (fun i => nth i (t_sources t) O) is).
  destruct (existsb (tuple_eqb vs) seen) eqn:EM.
  { apply wp_ret. split; [split; [exact HJ|exact HB]|]. split; [exact L1|]. split; [exists seen; auto|].
    apply existsb_exists in EM. destruct EM as (vs' & Iv & EM). apply tuple_Z_decides in EM. subst vs'. apply (HS1 _ Iv is BI eq_refl). }
  assert (SK : settled (OMerge is) s1 -> wp (ret (Some (vs :: seen))) (fun o s' => J' s' /\ later s s' /\
    (exists x', o = Some x' /\ forall v, In v x' -> merge_settled v s') /\ settled (OMerge is) s') X s1).
  { intros H. apply wp_ret. split; [split; [exact HJ|exact HB]|]. split; [exact L1|]. split; [|exact H]. eexists. split; [reflexivity|].
    intros v [<-|Hv]; [apply merge_settle, H|apply HS1, Hv]. }
  assert (SE : sensible h t (OMerge is)) by (cbn [sensible]; split; [lia|]; split; [exact ND|exact BI]).
  assert (GV : given h t (OMerge is) = [zsum vs]) by reflexivity.
  assert (GI : In (zsum vs) (given h t (OMerge is))) by (left; reflexivity).
  destruct (existsb (fun v => zmem v cu) vs) eqn:EC.
  { apply SK. apply existsb_exists in EC. destruct EC as (v & Hv & Ec). apply settled_cant with v; [exact Hv|apply zmem_in, Ec]. }
  unfold gcd_incompatible. destruct (zsum vs <? p_gcd p) eqn:EG. { apply SK. apply settled_gcd with (zsum vs); [exact GI|lia]. }
  assert (NI : forall a, In a nodes -> In a (t_sources t) /\ In (value h a) vs).
  { intros a Ha. split; [|unfold vs, taken; cbn [op_nodes]; apply in_map, Ha]. apply in_map_iff in Ha. destruct Ha as (i & <- & Hi). apply nth_In, BI, Hi. }
  destruct ((zsum vs >? conveyor_speed_limit) || existsb (fun a => fl_contains Z.eqb (zsum vs) (n_past (get h a))) nodes) eqn:EP.
  { apply SK. apply orb_true_iff in EP. destruct EP as [EP|EP].
    - apply settled_limit with is; [reflexivity|]. fold vs. change conveyor_speed_limit with 1200 in EP. lia.
    - apply existsb_exists in EP. destruct EP as (a & Ha & EP). destruct (NI a Ha) as (Ia & Iv). apply in_past in EP; [|exact Ia].
      apply settled_past with a (zsum vs); assumption. }
  apply orb_false_iff in EP. destruct EP as [EL EP].
  assert (LV : length (t_source_values t) = m) by (rewrite (wf_values _ _ _ W); apply map_length).
  destruct (pick_perm 0 (t_source_values t) is ND) as (rest & PR). { intros i Hi. rewrite LV. apply BI, Hi. }
  rewrite <- TK in PR. destruct (py_remove_all vs (t_source_values t) rest PR) as (sim & ES & PS & SS).
  apply wp_bind. eapply wp_lift; [exact ES|].
  assert (SO : StronglySorted Z.le (insort (zsum vs) sim)) by (apply insort_z_sorted, SS, (wf_sorted _ _ _ W)).
  assert (PF : Permutation (insort (zsum vs) sim ++ taken h t (OMerge is)) (t_source_values t ++ given h t (OMerge is))).
  { rewrite GV. fold vs. rewrite insort_z_perm, PS, PR. rewrite <- app_assoc, (Permutation_app_comm vs (rest ++ [zsum vs])).
    rewrite (Permutation_app_comm rest [zsum vs]). reflexivity. }
  apply wp_bind. apply wp_unseen; [exact HJ|intros SB; apply SK, settled_seen with (insort (zsum vs) sim); assumption|]. intros NEW. apply wp_bind.
  eapply wp_conseq; [|apply (J_yield _ (OMerge is) (merge_cost k 1) s1); [|exact HJ|exact HB]].
  - intros go s' (-> & J2 & L2 & (e & E1 & E2 & E3) & HB2). apply wp_ret. split; [split; [exact J2|lia]|]. split; [eapply later_trans; eassumption|].
    assert (ST : settled (OMerge is) s') by (apply settled_tried with e; [exact E1|exact E2|rewrite E3; exact SE|rewrite E3; apply same_refl]).
    split; [|exact ST]. eexists. split; [reflexivity|]. intros v [<-|Hv]; [apply merge_settle, ST|]. apply (merge_later _ _ _ L2), HS1, Hv.
  - constructor; try assumption.
    + cbn [priced]. rewrite LI. f_equal. lia.
    + intros is' _. fold vs. change conveyor_speed_limit with 1200 in EL. lia.
    + discriminate.
    + cbn [op_nodes]. fold nodes. rewrite GV. intros a v Ha [<-|[]]. destruct (NI a Ha) as (Ia & _).
      apply not_contains; [apply (source_facts h t N a W Ia)|]. apply not_true_iff_false. intros F.
      apply not_true_iff_false in EP. apply EP. apply existsb_exists. exists a. auto.
    + rewrite GV. intros v [<-|[]]. lia.
    + fold vs. intros v Hv Iv. apply not_true_iff_false in EC. apply EC. apply existsb_exists. exists v. split; [exact Hv|]. apply zmem_in, Iv.
Qed.
End Settled.

(** the same on a later heap *)
Lemma taken_back h h' t N o : wf h t N -> extends h h' -> sensible h' t o -> taken h' t o = taken h t o.
Proof.
  intros W E S. unfold taken. apply map_ext_in. intros a Ha. unfold value. rewrite (source_get h h' t N); auto.
  apply (op_nodes_in h' t o a S Ha).
Qed.
Lemma sensible_back h h' t N o : wf h t N -> extends h h' -> sensible h' t o -> sensible h t o.
Proof. intros W E S. unfold sensible. rewrite <- (taken_back h h' t N o W E S). exact S. Qed.
Lemma settled_back p h h' t N cu o s : wf h t N -> extends h h' -> sensible h t o -> settled p h' t cu o s -> settled p h t cu o s.
Proof.
  intros W E S H. pose proof (taken_extends h h' t N o W E S) as TE. pose proof (given_extends h h' t N o W E S) as GE.
  destruct H as [v H1 H2|v H1 H2|c H1 H2|is H1 H2|a v H1 H2 H3 H4|sim H1 H2 H3|e H1 H2 H3 H4]; rewrite ?TE, ?GE in *.
  - eapply settled_cant; eassumption.
  - eapply settled_gcd; eassumption.
  - apply settled_cost with c; [|exact H2]. unfold priced in *. rewrite TE in H1. exact H1.
  - eapply settled_limit; eassumption.
  - unfold value in H2. rewrite (source_get h h' t N a W E H1) in *. eapply settled_past; eassumption.
  - eapply settled_seen; eassumption.
  - apply settled_tried with e; [exact H1|exact H2|apply (sensible_back h h' t N); assumption|]. unfold same_op in *. rewrite TE in H4.
    rewrite (taken_back h h' t N (ev_op e) W E H3) in H4. exact H4.
Qed.
Lemma offered_extends h h' t N o : wf h t N -> extends h h' -> offered h t o -> offered h' t o.
Proof.
  intros W E [S O]. unfold offered. rewrite (taken_extends h h' t N o W E S). split; [apply (sensible_extends h h' t N); assumption|exact O].
Qed.
Lemma offered_back h h' t N o : wf h t N -> extends h h' -> offered h' t o -> offered h t o.
Proof.
  intros W E [S O]. unfold offered. rewrite <- (taken_back h h' t N o W E S). split; [apply (sensible_back h h' t N o W E S)|exact O].
Qed.
Lemma zmax_upper l m : zmax l = Some m -> forall v, In v l -> v <= m.
Proof.
  unfold zmax. destruct l as [|x l]; [discriminate|]. intros [= <-].
  assert (H : forall l x, x <= fold_left Z.max l x /\ forall v, In v l -> v <= fold_left Z.max l x).
  { clear. induction l as [|y l IH]; intros x; cbn [fold_left]; [split; [lia|intros v []]|]. destruct (IH (Z.max x y)) as [H1 H2].
    split; [lia|]. intros v [<-|Hv]; [lia|apply H2, Hv]. }
  destruct (H l x) as [H1 H2]. intros v [<-|Hv]; [exact H1|apply H2, Hv].
Qed.
Lemma zmin_lower l m : zmin l = Some m -> forall v, In v l -> m <= v.
Proof.
  unfold zmin. destruct l as [|x l]; [discriminate|]. intros [= <-].
  assert (H : forall l x, fold_left Z.min l x <= x /\ forall v, In v l -> fold_left Z.min l x <= v).
  { clear. induction l as [|y l IH]; intros x; cbn [fold_left]; [split; [lia|intros v []]|]. destruct (IH (Z.min x y)) as [H1 H2].
    split; [lia|]. intros v [<-|Hv]; [lia|apply H2, Hv]. }
  destruct (H l x) as [H1 H2]. intros v [<-|Hv]; [exact H1|apply H2, Hv].
Qed.

(** ** enqueue and try_op *)
Section Run.
Variables (p : problem) (R : oracle).
Hypothesis F : loaded_facts p.
Hypothesis NS : o_stop R = None.

Definition queue_kept (s s' : state) : Prop :=
  forall x, In x (s_queue s) -> In x (s_queue s') \/ s_best_size s' <= t_size (fst x).

Lemma read_true (Q : bool -> state -> Prop) X s : s_forced_stop s = false ->
  Q true (with_counters (S (s_reads s)) (s_scores s) (s_picks s) (s_sames s) s) -> wp (read_solving R) Q X s.
Proof. intros E H. unfold wp, read_solving. rewrite E, NS. exact H. Qed.

Lemma purge_keeps s : wp (purge_queue R) (fun _ s' => s_log s' = s_log s /\ s_heap s' = s_heap s /\ queue_kept s s' /\
  s_solutions s' = s_solutions s /\ s_best_size s' = s_best_size s) (fun _ _ => True) s.
Proof.
  unfold purge_queue. apply wp_bind, wp_gets. unfold wp.
  destruct (purge_loop_spec R (length (s_queue s)) s) as (j & r & E & Lj & _); [lia|]. rewrite E.
  split; [reflexivity|]. split; [reflexivity|]. split; [|split; reflexivity]. intros x Hx. cbn [with_counters with_queue s_queue s_best_size].
  rewrite (purge_split j (length (s_queue s)) (s_queue s) Lj), !in_app_iff in Hx. rewrite !in_app_iff, filter_In. unfold keep at 1.
  destruct Hx as [Hx|[Hx|Hx]]; [auto| |auto]. destruct (t_size (fst x) >=? s_best_size s) eqn:EG; [right; lia|]. left. right. left. auto.
Qed.

(** a tree that delivers the targets counts *)
Definition counted (t : tree Z) (s : state) : Prop := s_best_size s <= t_size t /\ s_solutions s <> [].
Lemma enqueue_keeps t s : s_forced_stop s = false -> s_solutions_count s = Z.of_nat (length (s_solutions s)) ->
  wp (enqueue R p t) (fun _ s' => s_log s' = s_log s /\ s_heap s' = s_heap s /\
    ((is_solution p (s_heap s) (t_sources t) = true /\ counted t s') \/ In t (map fst (s_queue s'))) /\ queue_kept s s' /\
    (s_solutions s <> [] -> s_solutions s' <> []) /\ (s_solutions s' = [] -> s_best_size s' = s_best_size s)) (fun _ _ => True) s.
Proof.
  intros FO CT. unfold enqueue. apply wp_bind, read_true; [exact FO|]. cbn [negb]. apply wp_bind, wp_gets. set (s1 := with_counters _ _ _ _ s).
  change (s_heap s1) with (s_heap s). destruct (is_solution p (s_heap s) (t_sources t)).
  - apply wp_bind. unfold solution_found. apply wp_bind, wp_gets, wp_bind, wp_gets, wp_bind, wp_gets.
    assert (SAME : forall s2, s_log s2 = s_log s -> s_heap s2 = s_heap s -> s_queue s2 = s_queue s -> counted t s2 ->
      s_log s2 = s_log s /\ s_heap s2 = s_heap s /\ ((true = true /\ counted t s2) \/ In t (map fst (s_queue s2))) /\ queue_kept s s2 /\
      (s_solutions s <> [] -> s_solutions s2 <> []) /\ (s_solutions s2 = [] -> s_best_size s2 = s_best_size s)).
    { intros s2 E1 E2 E3 E4. split; [exact E1|]. split; [exact E2|]. split; [auto|]. split; [|split; [intros _; apply E4|intros E; destruct E4; contradiction]].
      intros x Hx. left. rewrite E3. exact Hx. }
    change (s_solutions_count s1) with (s_solutions_count s). change (s_best_size s1) with (s_best_size s).
    destruct (_ || _) eqn:EC.
    + apply wp_bind, wp_modify, wp_ret. eapply wp_conseq; [|apply purge_keeps]. intros _ s3 (L3 & H3 & Q3 & S3 & B3). 
      split; [exact L3|]. split; [exact H3|]. split; [|split; [exact Q3|rewrite S3; split; [intros _; discriminate|discriminate]]]. left. split; [reflexivity|].
      split; [rewrite B3; cbn; lia|rewrite S3; discriminate].
    + apply orb_false_iff in EC. destruct EC as [EC1 EC2].
      assert (SN : s_solutions s <> []) by (intros E; rewrite E in CT; cbn in CT; lia).
      destruct (t_size t =? s_best_size s).
      * apply wp_bind. unfold wp. destruct (any_same_ok R t (s_solutions s1) s1) as (known & k & ->).
        destruct known; apply SAME; try reflexivity; (split; [cbn; lia|]); [exact SN|]. cbn. destruct (s_solutions s); discriminate.
      * apply wp_bind, wp_modify, wp_ret, wp_ret. apply SAME; try reflexivity. split; [cbn; lia|exact SN].
  - apply wp_bind, wp_gets, wp_bind, wp_modify, wp_modify.
    split; [reflexivity|]. split; [reflexivity|]. cbn [with_queue s_queue with_counters s1].
    assert (PE := insort_perm entry_le (t, o_score R (s_scores s1) (t_source_values t)) (s_queue s)).
    split.
    + right. apply (Permutation_in t (Permutation_sym (Permutation_map fst PE))). left. reflexivity.
    + split; [|split; auto]. intros x Hx. left. apply (Permutation_in x (Permutation_sym PE)). right. exact Hx.
Qed.

Lemma try_body_keeps t sim o cost s : s_forced_stop s = false -> s_solutions_count s = Z.of_nat (length (s_solutions s)) ->
  wp (try_body R p t sim o cost) (fun go s' => go = true /\ exists new, s_log s' = MkEvent t o sim cost new :: s_log s /\
    ((is_solution p (s_heap s') (t_sources new) = true /\ counted new s') \/ In new (map fst (s_queue s'))) /\ queue_kept s s' /\
    (s_solutions s <> [] -> s_solutions s' <> []) /\ (s_solutions s' = [] -> s_best_size s' = s_best_size s)) (fun _ _ => True) s.
Proof.
  intros FO CT. unfold try_body. apply wp_bind, read_true; [exact FO|]. cbn [negb]. apply wp_bind, wp_gets. set (s1 := with_counters _ _ _ _ s).
  apply wp_bind. unfold wp at 1, lift. destruct (apply_op (s_heap s1) t o cost) as [[h' new]|e]; [|exact I].
  apply wp_bind, wp_modify, wp_bind, wp_modify. set (s2 := with_log _ _). apply wp_bind.
  eapply wp_conseq; [|apply (enqueue_keeps new s2 FO CT)]. intros _ s3 (L3 & H3 & N3 & Q3). apply wp_ret. split; [reflexivity|].
  exists new. split; [exact L3|]. split; [rewrite H3; exact N3|exact Q3].
Qed.

(** ** every tree is accounted for *)
Definition wanted (t : tree Z) (o : op) : Prop :=
  (exists is, o = OMerge is) \/ exists v w, In v (t_source_values t) /\ In w (p_targets p) /\ w < v.
Definition cant (t : tree Z) : list Z := compute_cant_use (p_target_counts p) (t_source_values t).
Definition expanded (t : tree Z) (s : state) : Prop :=
  exists h N, extends h (s_heap s) /\ wf h t N /\ forall o, offered h t o -> wanted t o -> settled p h t (cant t) o s.
Lemma expanded_later t s s' : later s s' -> expanded t s -> expanded t s'.
Proof.
  intros L (h & N & E & W & H). exists h, N. split; [eapply extends_trans; [exact E|apply (la_heap _ _ L)]|]. split; [exact W|].
  intros o O W'. apply (settled_later _ _ _ _ _ _ _ L), H; assumption.
Qed.
Definition accounted (except : tree Z -> Prop) (s : state) : Prop :=
  forall u, In u (explored p (s_log s)) -> t_source_values u <> p_targets p ->
    except u \/ In u (map fst (s_queue s)) \/ s_best_size s <= t_size u \/ expanded u s.

Definition recorded (s : state) : Prop :=
  (forall u, In u (explored p (s_log s)) -> t_source_values u = p_targets p -> counted u s) /\
  (forall e, In e (s_log s) -> t_source_values (ev_from e) <> p_targets p) /\
  (s_solutions s = [] -> s_best_size s = p_initial_best_size p).

Let K := (3 * total p + 2 ^ total p * total p)%nat.

Lemma sols_facts s u : Inv p s -> In u (s_solutions s) -> In u (explored p (s_log s)) /\ t_source_values u = p_targets p /\ fl_inv (t_past u).
Proof.
  intros I Hu. pose proof (iv_sols _ _ _ _ _ _ _ _ I) as SL. rewrite Forall_forall in SL. destruct (SL u Hu) as (H1 & H2 & _).
  split; [exact H1|]. split; [exact H2|]. pose proof (iv_good _ _ _ _ _ _ _ _ I) as G. rewrite Forall_forall in G. destruct (G u H1) as [N Gu].
  apply (wf_tpast _ _ _ (gd_wf _ _ _ _ Gu)).
Qed.

Section Explore.
Variable t : tree Z.
Hypothesis NTt : t_source_values t <> p_targets p.
Definition step_inv (s : state) : Prop := Inv p s /\ In t (explored p (s_log s)) /\ accounted (eq t) s /\ recorded s.
Lemma step_yield h N : good p h t N -> forall sim o cost s, candidate p h t (cant t) sim o cost -> step_inv s /\ extends h (s_heap s) -> t_size t + cost <= s_best_size s ->
  wp (try_body R p t sim o cost) (fun go s' => go = true /\ (step_inv s' /\ extends h (s_heap s')) /\ later s s' /\ (exists e, In e (s_log s') /\ ev_from e = t /\ ev_op e = o) /\
    (s_best_size s' = s_best_size s \/ s_best_size s' = t_size t + cost)) (fun _ _ => False) s.
Proof.
  intros G sim o cost s C [(I & It & AC & RC) E] Sz.
  pose proof (candidate_extends p _ _ t N _ _ _ _ (gd_wf _ _ _ _ G) E C) as C'. pose proof (good_extends p _ _ t N E G) as G'.
  pose proof (try_body_ok p F K R t N sim o cost s I It G' C' Sz) as H1.
  pose proof (try_body_keeps t sim o cost s (iv_forced _ _ _ _ _ _ _ _ I) (iv_count _ _ _ _ _ _ _ _ I)) as H2.
  eapply wp_conseq; [|apply (wp_and _ _ _ _ _ _ H1 H2)]. clear H1 H2.
  intros go s' [(I' & L' & B' & _) (-> & new & EL & NW & QK & SN & SB)]. split; [reflexivity|].
  assert (E' : extends h (s_heap s')) by (eapply extends_trans; [exact E|apply (la_heap _ _ L')]).
  split; [split; [|exact E']|]; [|split; [exact L'|]; split; [|exact B']].
  - split; [exact I'|]. split; [apply (later_explored p _ _ _ L' It)|]. split.
    2: { destruct RC as (RC & RF & RB). split; [|split; [intros x Hx; rewrite EL in Hx; destruct Hx as [<-|Hx]; [exact NTt|apply RF, Hx]|]].
      2: { intros E0. rewrite SB by exact E0. apply RB. destruct (s_solutions s); [reflexivity|]. exfalso. apply SN; [discriminate|exact E0]. }
      intros u Hu ET. rewrite EL in Hu. destruct Hu as [<-|Hu].
      - cbn [ev_to] in *. destruct NW as [[_ NW]|NW]; [exact NW|]. exfalso.
        pose proof (iv_queue _ _ _ _ _ _ _ _ I') as QU. rewrite Forall_forall in QU. apply in_map_iff in NW. destruct NW as (x & <- & Hx). apply (QU x Hx), ET.
      - destruct (RC u Hu ET) as [B S]. pose proof (la_best _ _ L'). split; [lia|apply SN, S]. }
    intros u Hu NT. rewrite EL in Hu. destruct Hu as [<-|Hu].
    + cbn [ev_to]. right. left. destruct NW as [[NW _]|NW]; [|exact NW]. exfalso. apply NT. cbn [ev_to].
      pose proof (iv_good _ _ _ _ _ _ _ _ I') as GD. rewrite Forall_forall in GD. destruct (GD new) as [Nn Gn]. { rewrite EL. left. reflexivity. }
      apply (is_solution_iff p _ _ _ (gd_wf _ _ _ _ Gn)), NW.
    + destruct (AC u Hu NT) as [H|[H|[H|H]]]; [auto| | |].
      * apply in_map_iff in H. destruct H as (x & <- & Hx). destruct (QK x Hx) as [H|H]; [|auto]. right. left. apply in_map, H.
      * right. right. left. pose proof (la_best _ _ L'). lia.
      * right. right. right. apply (expanded_later _ _ _ L' H).
  - exists (MkEvent t o sim cost new). split; [rewrite EL; left; reflexivity|auto].
Qed.

Lemma try_all N (sims : oracle -> problem -> tree Z -> list Z -> (list Z -> op -> Z -> M bool) -> M unit) (covers : heap Z -> op -> Prop) s0 :
  good p (s_heap s0) t N ->
  (forall h (J : state -> Prop) X y, good p h t N ->
     (forall a b c d s, J s -> J (with_counters a b c d s)) -> (forall s, J s -> s_forced_stop s = false) ->
     (forall s u, J s -> In u (s_solutions s) -> In u (explored p (s_log s)) /\ t_source_values u = p_targets p /\ fl_inv (t_past u)) ->
     (forall sim o cost s, candidate p h t (cant t) sim o cost -> J s -> t_size t + cost <= s_best_size s ->
        wp (y sim o cost) (fun go s' => go = true /\ J s' /\ later s s' /\ (exists e, In e (s_log s') /\ ev_from e = t /\ ev_op e = o) /\
          (s_best_size s' = s_best_size s \/ s_best_size s' = t_size t + cost)) X s) ->
     forall s, s_heap s = h -> J s -> wp (sims R p t (cant t) y) (fun _ s' => J s' /\ later s s' /\ forall o, covers h o -> settled p h t (cant t) o s') X s) ->
  forall s, step_inv s -> later s0 s ->
  wp (try_op R p (sims R p) t (cant t)) (fun go s' => go = true /\ step_inv s' /\ later s s' /\
    forall o, covers (s_heap s) o -> settled p (s_heap s) t (cant t) o s') (fun _ _ => False) s.
Proof.
  intros G0 HS s SI L0. unfold try_op. apply wp_bind. pose proof (good_extends p _ _ t N (la_heap _ _ L0) G0) as G.
  eapply wp_conseq; [|apply (HS (s_heap s) (fun s' => step_inv s' /\ extends (s_heap s) (s_heap s')) (fun _ _ => False) (try_body R p t) G)].
  - intros _ s' ((SI' & E') & L' & C'). apply read_true; [apply (iv_forced _ _ _ _ _ _ _ _ (proj1 SI'))|]. split; [reflexivity|].
    assert (LC := later_counters (S (s_reads s')) (s_scores s') (s_picks s') (s_sames s') s').
    split; [|split; [eapply later_trans; [exact L'|exact LC]|intros o Ho; apply (settled_later _ _ _ _ _ _ _ LC), C', Ho]].
    destruct SI' as (I' & It' & AC' & RC'). split; [exact I'|]. split; [exact It'|]. split; [|exact RC']. intros u Hu NT. destruct (AC' u Hu NT) as [H|[H|[H|H]]]; auto.
    right. right. right. apply (expanded_later _ _ _ LC H).
  - intros a b c d s1 [(I1 & It1 & AC1 & RC1) E1]. split; [|exact E1]. split; [exact I1|]. split; [exact It1|]. split; [|exact RC1]. intros u Hu NT.
    destruct (AC1 u Hu NT) as [H|[H|[H|H]]]; auto. right. right. right. apply (expanded_later _ _ _ (later_counters a b c d s1) H).
  - intros s1 [(I1 & _) _]. apply (iv_forced _ _ _ _ _ _ _ _ I1).
  - intros s1 u [(I1 & _) _] Hu. apply (sols_facts s1 u I1 Hu).
  - apply (step_yield (s_heap s) N G).
  - reflexivity.
  - split; [exact SI|apply extends_refl].
Qed.

Lemma explore_all s : Inv p s -> In t (explored p (s_log s)) -> accounted (eq t) s -> recorded s ->
  wp (explore R p t) (fun go s' => go = true /\ Inv p s' /\ later s s' /\ accounted (fun _ => False) s' /\ recorded s') (fun _ _ => False) s.
Proof.
  intros I0 It AC RC. pose proof (iv_good _ _ _ _ _ _ _ _ I0) as GD. rewrite Forall_forall in GD. destruct (GD t It) as [N G].
  pose proof (gd_wf _ _ _ _ G) as W.
  unfold explore. apply wp_bind, wp_gets.
  assert (EC : compute_cant_use (p_target_counts p) (node_values (s_heap s) (t_sources t)) = cant t) by (unfold cant; rewrite (wf_values _ _ _ W); reflexivity).
  rewrite EC. clear EC.
  assert (NE : t_source_values t <> []).
  { intros E. pose proof (gd_total _ _ _ _ G) as T. rewrite E in T. cbn in T. pose proof (lf_pos p F) as P. pose proof (lf_nonempty p F) as NN.
    destruct (p_sources p) as [|x l]; [congruence|]. rewrite zsum_cons in T. inversion P; subst.
    assert (0 <= zsum l) by (apply zsum_nonneg; assumption). lia. }
  destruct (zmax (t_source_values t)) as [top|] eqn:EM. 2: { destruct (t_source_values t); [congruence|discriminate]. }
  assert (S0 : step_inv s) by (split; [exact I0|]; split; [|split]; assumption).
  (* the final step: what is settled counts as expanded *)
  assert (FIN : forall s', step_inv s' -> later s s' -> (forall o, offered (s_heap s) t o -> wanted t o -> settled p (s_heap s) t (cant t) o s') ->
    true = true /\ Inv p s' /\ later s s' /\ accounted (fun _ => False) s' /\ recorded s').
  { intros s' (I' & It' & AC' & RC') L' H. split; [reflexivity|]. split; [exact I'|]. split; [exact L'|]. split; [|exact RC']. intros u Hu NT.
    destruct (AC' u Hu NT) as [<-|HH]; [|auto]. right. right. right. exists (s_heap s), N. split; [apply (la_heap _ _ L')|]. split; [exact W|exact H]. }
  assert (TV : forall h o, good p h t N -> sensible h t o -> match o with OMerge _ => True | OExtract i _ | ODivide i _ | OSplit i _ =>
     exists a, nth_error (t_sources t) i = Some a /\ zsum (taken h t o) = value h a end).
  { intros h o Gh SE. destruct o as [i c|i c|i c|is]; [| | |exact Logic.I];
    (assert (Bi : (i < length (t_sources t))%nat) by apply SE; destruct (nth_error (t_sources t) i) as [a|] eqn:En; [|apply nth_error_None in En; lia];
     exists a; split; [reflexivity|]; match goal with |- zsum (taken _ _ ?o) = _ => apply (taken_one h t N (gd_wf _ _ _ _ Gh) i a En o eq_refl) end). }
  assert (XE : forall s1, step_inv s1 -> later s s1 -> wp (try_op R p (extract_sims R p) t (cant t)) (fun go s' => go = true /\ step_inv s' /\ later s1 s' /\
     forall o, offered (s_heap s1) t o /\ (exists i c, o = OExtract i c) -> settled p (s_heap s1) t (cant t) o s') (fun _ _ => False) s1).
  { apply (try_all N extract_sims (fun h o => offered h t o /\ exists i c, o = OExtract i c) s G).
    intros h J X y Gh H1 H2 H3 H4 s1 EH HJ. eapply wp_conseq; [|apply (extract_all p h t (cant t) N (gd_wf _ _ _ _ Gh) R NS J X y H1 H2 H3 H4 s1 EH HJ)].
    intros _ s' (J' & L' & H). split; [exact J'|]. split; [exact L'|]. intros o [[SE OF] (i & c & ->)].
    destruct (TV h _ Gh SE) as (a & Ea & Ev). cbn [sensible] in SE. rewrite Ev in *. apply (H i a c Ea); lia. }
  assert (XD : forall s1, step_inv s1 -> later s s1 -> wp (try_op R p (divide_sims R p) t (cant t)) (fun go s' => go = true /\ step_inv s' /\ later s1 s' /\
     forall o, offered (s_heap s1) t o /\ (exists i c, o = ODivide i c) -> settled p (s_heap s1) t (cant t) o s') (fun _ _ => False) s1).
  { apply (try_all N divide_sims (fun h o => offered h t o /\ exists i c, o = ODivide i c) s G).
    intros h J X y Gh H1 H2 H3 H4 s1 EH HJ. eapply wp_conseq; [|apply (divide_all p h t (cant t) N (gd_wf _ _ _ _ Gh) R NS J X y H1 H2 H3 H4 s1 EH HJ)].
    intros _ s' (J' & L' & H). split; [exact J'|]. split; [exact L'|]. intros o [[SE OF] (i & c & ->)].
    destruct (TV h _ Gh SE) as (a & Ea & Ev). cbn [sensible] in SE. rewrite Ev in *. apply (H i a c Ea); tauto. }
  assert (XS : forall s1, step_inv s1 -> later s s1 -> wp (try_op R p (split_sims R p) t (cant t)) (fun go s' => go = true /\ step_inv s' /\ later s1 s' /\
     forall o, offered (s_heap s1) t o /\ (exists i c, o = OSplit i c) -> settled p (s_heap s1) t (cant t) o s') (fun _ _ => False) s1).
  { apply (try_all N split_sims (fun h o => offered h t o /\ exists i c, o = OSplit i c) s G).
    intros h J X y Gh H1 H2 H3 H4 s1 EH HJ. eapply wp_conseq; [|apply (split_all p h t (cant t) N (lf_gcd p F) (gd_wf _ _ _ _ Gh) R NS J X y H1 H2 H3 H4 s1 EH HJ)].
    intros _ s' (J' & L' & H). split; [exact J'|]. split; [exact L'|]. intros o [[SE OF] (i & c & ->)].
    destruct (TV h _ Gh SE) as (a & Ea & Ev). cbn [sensible] in SE. rewrite Ev in *. destruct SE as (_ & S1 & S2). apply (H i a c Ea); [|lia].
    split; [exact S1|]. split; [lia|exact OF]. }
  assert (XM : forall s1, step_inv s1 -> later s s1 -> wp (try_op R p (merge_sims R p) t (cant t)) (fun go s' => go = true /\ step_inv s' /\ later s1 s' /\
     forall o, offered (s_heap s1) t o /\ (exists is, o = OMerge is) -> settled p (s_heap s1) t (cant t) o s') (fun _ _ => False) s1).
  { apply (try_all N merge_sims (fun h o => offered h t o /\ exists is, o = OMerge is) s G).
    intros h J X y Gh H1 H2 H3 H4 s1 EH HJ. eapply wp_conseq; [|apply (merge_all p h t (cant t) N (gd_wf _ _ _ _ Gh) (gd_count _ _ _ _ Gh) R NS J X y H1 H2 H3 H4 s1 EH HJ)].
    intros _ s' (J' & L' & H). split; [exact J'|]. split; [exact L'|]. intros o [[SE OF] (is & ->)]. destruct SE as (S1 & S2 & S3). apply (H is S1 S2 S3). }
  assert (SB : forall s1 s2 o, later s s1 -> offered (s_heap s) t o -> settled p (s_heap s1) t (cant t) o s2 -> settled p (s_heap s) t (cant t) o s2).
  { intros s1 s2 o L1 OF. apply (settled_back p _ _ t N); [exact W|apply (la_heap _ _ L1)|apply OF]. }
  assert (OE : forall s1 o, later s s1 -> offered (s_heap s) t o -> offered (s_heap s1) t o).
  { intros s1 o L1. apply (offered_extends _ _ t N); [exact W|apply (la_heap _ _ L1)]. }
  destruct (top <=? p_min_target p) eqn:ET.
  - eapply wp_conseq; [|apply (XM s S0 (later_refl s))]. intros go s1 (-> & S1 & L1 & C1). apply FIN; [exact S1|exact L1|].
    intros o OF [WM|(v & w & Hv & Hw & Lt)]; [apply C1; auto|]. exfalso.
    pose proof (zmax_upper _ _ EM v Hv). pose proof (zmin_lower _ _ (lf_min p F) w Hw). lia.
  - apply wp_bind. eapply wp_conseq; [|apply (XE s S0 (later_refl s))]. intros go s1 (-> & S1 & L1 & C1). cbn [negb].
    apply wp_bind. eapply wp_conseq; [|apply (XD s1 S1 L1)]. intros go s2 (-> & S2 & L2 & C2). cbn [negb].
    assert (L02 : later s s2) by (eapply later_trans; eassumption).
    apply wp_bind. eapply wp_conseq; [|apply (XS s2 S2 L02)]. intros go s3 (-> & S3 & L3 & C3). cbn [negb].
    assert (L03 : later s s3) by (eapply later_trans; eassumption).
    assert (L13 : later s1 s3) by (eapply later_trans; eassumption).
    assert (H3 : forall o, offered (s_heap s) t o -> (forall is, o <> OMerge is) -> settled p (s_heap s) t (cant t) o s3).
    { intros o OF NM. destruct o as [i c|i c|i c|is].
      - apply (settled_later _ _ _ _ _ _ _ L13), C1. split; [exact OF|eauto].
      - apply (settled_later _ _ _ _ _ _ _ L3), (SB s1), C2; [exact L1|exact OF|]. split; [apply OE; assumption|eauto].
      - apply (SB s2), C3; [exact L02|exact OF|]. split; [apply OE; assumption|eauto].
      - exfalso. apply (NM is eq_refl). }
    destruct (t_n_sources t =? 1) eqn:E1.
    + apply wp_ret. apply FIN; [exact S3|exact L03|]. intros o OF _. apply H3; [exact OF|]. intros is ->. destruct OF as [(O1 & O2 & O3) _].
      pose proof (gd_count _ _ _ _ G) as CN. apply Z.eqb_eq in E1.
      assert (length is <= length (t_sources t))%nat; [|lia]. rewrite <- (seq_length (length (t_sources t)) 0). apply NoDup_incl_length; [exact O2|].
      intros i Hi. apply in_seq. split; [lia|apply O3, Hi].
    + eapply wp_conseq; [|apply (XM s3 S3 L03)]. intros go s4 (-> & S4 & L4 & C4). apply FIN; [exact S4|eapply later_trans; eassumption|].
      intros o OF _. destruct o as [i c|i c|i c|is]; try (apply (settled_later _ _ _ _ _ _ _ L4), H3; [exact OF|discriminate]).
      apply (SB s3), C4; [exact L03|exact OF|]. split; [apply OE; assumption|eauto].
Qed.
End Explore.

(** ** the main loop *)
Lemma loop_all : forall fuel s, Inv p s -> accounted (fun _ => False) s -> recorded s ->
  wp (solve_loop R p fuel) (fun _ s' => Inv p s' /\ accounted (fun _ => False) s' /\ s_queue s' = [] /\ recorded s') (fun _ _ => True) s.
Proof.
  induction fuel as [|fuel IH]; intros s I AC RC; [exact Logic.I|]. cbn [solve_loop].
  apply wp_bind, read_true; [apply (iv_forced _ _ _ _ _ _ _ _ I)|]. cbn [negb]. set (s1 := with_counters _ _ _ _ s).
  assert (LC : later s s1) by apply later_counters.
  assert (AC1 : accounted (fun _ => False) s1).
  { intros u Hu NT. destruct (AC u Hu NT) as [H|[H|[H|H]]]; auto. right. right. right. apply (expanded_later _ _ _ LC H). }
  apply wp_bind, wp_gets. destruct (s_queue s1) as [|e0 q0] eqn:EQ. { apply wp_ret. auto. }
  assert (NE : s_queue s1 <> []) by (rewrite EQ; discriminate).
  apply wp_bind. unfold wp at 1. destruct (dequeue_cases R s1 NE) as [(r & E & NN)|(r & c & k & x & E & EN & _)]; rewrite E; [exact Logic.I|].
  set (q := s_queue s1) in *. set (s2 := with_counters r _ c _ _).
  pose proof (pop_split _ _ _ EN) as SP.
  assert (I2 : Inv p s2).
  { unfold Inv. cbn [s2 with_counters with_queue s_heap s_queue s_best_size s_solutions s_solutions_count s_forced_stop s_log].
    apply (queue_sub p _ q); [|apply (sorted_pop _ k q x EN), (iv_sorted _ _ _ _ _ _ _ _ I)|exact I].
    intros e. rewrite SP at 3. rewrite !in_app_iff. cbn [In]. tauto. }
  assert (Ix : In (fst x) (explored p (s_log s2)) /\ t_source_values (fst x) <> p_targets p).
  { pose proof (iv_queue _ _ _ _ _ _ _ _ I) as QU. rewrite Forall_forall in QU. apply (QU x). apply (nth_error_In _ _ EN). }
  destruct Ix as [Ix NTx].
  assert (L2 : later s1 s2) by (constructor; [apply extends_refl|exists []; reflexivity|cbn; lia]).
  destruct x as [t sc]. cbn [fst] in Ix, NTx.
  assert (AC2 : accounted (eq t) s2).
  { intros u Hu NT. destruct (AC1 u Hu NT) as [[]|[H|[H|H]]].
    - fold q in H. rewrite SP, map_app in H. cbn [map fst] in H. apply in_app_or in H. cbn [In] in H.
      cbn [s2 with_counters with_queue s_queue]. rewrite map_app, in_app_iff. destruct H as [H|[H|H]]; auto.
    - right. right. left. exact H.
    - right. right. right. apply (expanded_later _ _ _ L2 H). }
  apply wp_bind. pose proof (explore_all t NTx s2 I2 Ix AC2 RC) as EX. unfold wp in EX |- *.
  destruct (explore R p t s2) as [[go|e] s3]; [|contradiction]. destruct EX as (-> & I3 & L3 & AC3 & RC3). apply (IH s3 I3 AC3 RC3).
Qed.

Lemma solve_all fuel : match solve R fuel p with
  | (Ok _, s) => Inv p s /\ accounted (fun _ => False) s /\ s_queue s = [] /\ recorded s
  | (Err _, _) => True
  end.
Proof.
  unfold solve. change (wp (let! _ := enqueue R p (snd (initial_tree p)) in solve_loop R p fuel)
    (fun _ s => Inv p s /\ accounted (fun _ => False) s /\ s_queue s = [] /\ recorded s) (fun _ _ => True) (initial_state p)).
  pose proof (initial_inv p F) as I0. apply wp_bind.
  assert (SZ : t_size (snd (initial_tree p)) = 0) by reflexivity.
  assert (H1 : wp (enqueue R p (snd (initial_tree p))) (fun _ s' => step_post p K (snd (initial_tree p)) (initial_state p) s') (fun _ _ => False) (initial_state p)).
  { apply (enqueue_ok p K R _ _ I0); [left; reflexivity|constructor|rewrite SZ; apply (lf_initial p F)]. }
  pose proof (enqueue_keeps (snd (initial_tree p)) (initial_state p) eq_refl eq_refl) as H2.
  pose proof (wp_and _ _ _ _ _ _ H1 H2) as H. unfold wp in H |- *.
  destruct (enqueue R p (snd (initial_tree p)) (initial_state p)) as [[u|e] s1]; [|contradiction].
  destruct H as ((I1 & L1 & _) & _ & _ & NW & _ & _ & SB). apply (loop_all fuel s1 I1).
  - intros v Hv NT. rewrite L1 in Hv. destruct Hv as [<-|[]]. right. left. destruct NW as [[NW _]|NW]; [|exact NW]. exfalso. apply NT.
    apply (is_solution_iff p _ _ _ (initial_wf p F)), NW.
  - split; [|split; [rewrite L1; intros x []|exact SB]]. intros v Hv ET. rewrite L1 in Hv. destruct Hv as [<-|[]]. destruct NW as [[_ NW]|NW]; [exact NW|]. exfalso.
    pose proof (iv_queue _ _ _ _ _ _ _ _ I1) as QU. rewrite Forall_forall in QU. apply in_map_iff in NW. destruct NW as (x & Ex & Hx).
    destruct (QU x Hx) as [_ NT]. rewrite Ex in NT. apply NT, ET.
Qed.
End Run.

Lemma nothing_missed_lemma p R fuel t o : loaded p -> o_stop R = None -> fst (solve R fuel p) = Ok tt ->
  let s := snd (solve R fuel p) in
  In t (explored p (s_log s)) -> t_source_values t <> p_targets p ->
  offered (s_heap s) t o -> passes p (s_heap s) (s_log s) (s_best_size s) t o (as_large (s_heap s) t o) ->
  exists e, In e (s_log s) /\ ev_from e = t /\ same_op (s_heap s) t o (ev_op e).
Proof.
  intros L NS OK s It NT OF PA. pose proof (loaded_ok p L) as F. pose proof (solve_all p R F NS fuel) as H.
  unfold s in *. destruct (solve R fuel p) as [r s0]. cbn [fst snd] in *. subst r. destruct H as (I & AC & EQ & _). clear s. rename s0 into s.
  pose proof (iv_good _ _ _ _ _ _ _ _ I) as GD. rewrite Forall_forall in GD. destruct (GD t It) as [N G].
  destruct PA as [P1 P2 (cost & PC1 & PC2) P4 P5 P6 P7].
  pose proof (priced_pos _ _ _ _ _ (gd_wf _ _ _ _ G) (proj1 OF) PC1) as CP.
  destruct (AC t It NT) as [[]|[H|[H|(h & N' & E & W & H)]]]; [rewrite EQ in H; destruct H|lia|].
  pose proof (taken_back h (s_heap s) t N' o W E (proj1 OF)) as TE. pose proof (offered_back h (s_heap s) t N' o W E OF) as OF'.
  pose proof (given_extends h (s_heap s) t N' o W E (proj1 OF')) as GE.
  specialize (H o OF' P5). rewrite TE, GE in *.
  destruct H as [v H1 H2|v H1 H2|c H1 H2|is H1 H2|a v H1 H2 H3 H4|sim H1 H2 H3|e H1 H2 H3 H4].
  - exfalso. apply (cant_use_in p _ v (lf_counts p F)) in H2. specialize (P1 v H1). lia.
  - exfalso. specialize (P2 v H1). lia.
  - exfalso. unfold priced in *. rewrite TE in PC1. destruct o; rewrite ?PC1 in H1; try injection H1 as <-; subst; lia.
  - exfalso. specialize (P4 is H1). lia.
  - exfalso. rewrite <- (source_get h (s_heap s) t N' a W E H1) in H4. apply (P6 a v); [|exact H3|exact H4].
    split; [exact H1|]. unfold value. rewrite TE, (source_get h (s_heap s) t N' a W E H1). exact H2.
  - exfalso. destruct (P7 sim H1 H2) as [Q1 Q2]. destruct H3 as [H3|(u & U1 & U2 & U3)]; [apply Q1, H3|apply (Q2 u U1 U2 U3)].
  - exists e. split; [exact H1|]. split; [exact H2|]. unfold same_op in *.
    rewrite TE, (taken_extends h (s_heap s) t N' (ev_op e) W E H3). exact H4.
Qed.
