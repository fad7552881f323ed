(** The generators of candidate operations only yield sensible, priced,
    correctly predicted candidates. *)
From Verif Require Import Base BaseLemmas Cost CostSpec CostProofs Utils UtilsSpec UtilsProofs Fractions Load Tree TreeSpec Search SearchSpec
  HeapLemmas CopyProofs TreeInv TreeGrow TreeOps.
Open Scope Z_scope.

(** ** weakest preconditions *)
Definition wp {A} (m : M A) (Q : A -> state -> Prop) (X : exn -> state -> Prop) (s : state) : Prop :=
  match m s with (Ok a, s') => Q a s' | (Err e, s') => X e s' end.

Lemma wp_bind {A B} (m : M A) (k : A -> M B) Q X s : wp m (fun a s' => wp (k a) Q X s') X s -> wp (mbind m k) Q X s.
Proof. unfold wp, mbind. destruct (m s) as [[a|e] s']; auto. Qed.
Lemma wp_ret {A} (a : A) (Q : A -> state -> Prop) X s : Q a s -> wp (ret a) Q X s.
Proof. intros H. exact H. Qed.
Lemma wp_gets {A} (f : state -> A) (Q : A -> state -> Prop) X s : Q (f s) s -> wp (gets f) Q X s.
Proof. intros H. exact H. Qed.
Lemma wp_modify f (Q : unit -> state -> Prop) X s : Q tt (f s) -> wp (modify f) Q X s.
Proof. intros H. exact H. Qed.
Lemma wp_lift {A} (r : res A) a (Q : A -> state -> Prop) X s : r = Ok a -> Q a s -> wp (lift r) Q X s.
Proof. intros -> H. exact H. Qed.
Lemma wp_conseq {A} (m : M A) (Q Q' : A -> state -> Prop) X s : (forall a s', Q a s' -> Q' a s') -> wp m Q X s -> wp m Q' X s.
Proof. unfold wp. intros H. destruct (m s) as [[a|e] s']; auto. Qed.
Lemma wp_solving R (Q : bool -> state -> Prop) X s :
  (forall b, Q b (with_counters (S (s_reads s)) (s_scores s) (s_picks s) (s_sames s) s)) -> wp (read_solving R) Q X s.
Proof. intros H. unfold wp, read_solving. apply H. Qed.

Lemma wp_for_each {A S} (w : nat) (J : nat -> state -> Prop) X (body : A -> S -> M (option S)) (l : list A) :
  (forall n m s, (n <= m)%nat -> J n s -> J m s) ->
  (forall a x n s, In a l -> J n s -> wp (body a x) (fun _ s' => J (n + w)%nat s') X s) ->
  forall x n s, J n s -> wp (for_each body l x) (fun _ s' => J (n + w * length l)%nat s') X s.
Proof.
  intros Mono H. induction l as [|a l IH]; intros x n s HJ.
  - cbn [for_each]. apply wp_ret. apply (Mono n); [lia|exact HJ].
  - cbn [for_each]. apply wp_bind. eapply wp_conseq; [|apply H; [left; reflexivity|exact HJ]].
    intros [x'|] s' HJ'.
    + eapply wp_conseq; [|apply IH with (n := (n + w)%nat); [|exact HJ']].
      * intros oo s2 H2. apply (Mono (n + w + w * length l)%nat); [cbn [length]; nia|exact H2].
      * intros b y k s2 Hb. apply H. right. exact Hb.
    + apply wp_ret. apply (Mono (n + w)%nat); [cbn [length]; nia|exact HJ'].
Qed.

(** ** sorted lists of integers *)
Lemma sorted_le l : is_sorted Z.leb l <-> StronglySorted Z.le l.
Proof.
  unfold is_sorted. split; induction 1; constructor; auto; rewrite Forall_forall in *; intros y Hy; specialize (H0 y Hy); lia.
Qed.
Lemma insort_z_sorted x l : StronglySorted Z.le l -> StronglySorted Z.le (insort x l).
Proof. rewrite <- !sorted_le. apply insort_sorted; [apply Zleb_total|apply Zleb_trans]. Qed.
Lemma insort_z_perm x l : Permutation (insort x l) (x :: l).
Proof. apply insort_perm. Qed.
Lemma sorted_z_unique l l' : StronglySorted Z.le l -> StronglySorted Z.le l' -> Permutation l l' -> l = l'.
Proof. rewrite <- !sorted_le. apply sorted_unique. apply Zleb_anti. Qed.
Lemma py_remove_ok v l : In v l -> exists l', py_remove v l = Ok l' /\ Permutation l (v :: l') /\
  (StronglySorted Z.le l -> StronglySorted Z.le l') /\ (forall x, In x l' -> In x l).
Proof.
  induction l as [|x l IH]; intros I; [destruct I|]. cbn [py_remove]. destruct (Z.eqb_spec x v) as [->|D].
  - exists l. split; [reflexivity|]. split; [reflexivity|]. split; [intros S; inversion S; assumption|]. intros y Hy. right. exact Hy.
  - destruct I as [I|I]; [congruence|]. destruct (IH I) as (l' & E & P & S & SUB). rewrite E. cbn [bind]. exists (x :: l').
    split; [reflexivity|]. split; [rewrite P; apply perm_swap|]. split.
    + intros S0. inversion S0; subst. constructor; [auto|]. rewrite Forall_forall in *. auto.
    + intros y [->|Hy]; [left; reflexivity|right; auto].
Qed.
Lemma py_remove_all vs : forall l rest, Permutation l (vs ++ rest) -> exists l',
  fold_res (fun l v => py_remove v l) vs l = Ok l' /\ Permutation l' rest /\ (StronglySorted Z.le l -> StronglySorted Z.le l').
Proof.
  induction vs as [|v vs IH]; intros l rest P; [exists l; auto|]. cbn [fold_res].
  assert (I : In v l) by (apply (Permutation_in _ (Permutation_sym P)); left; reflexivity).
  destruct (py_remove_ok v l I) as (l1 & E & P1 & S1 & _). rewrite E. cbn [bind].
  rewrite P1 in P. cbn in P. apply Permutation_cons_inv in P. destruct (IH l1 rest P) as (l2 & E2 & P2 & S2).
  exists l2. split; [exact E2|]. split; [exact P2|auto].
Qed.

(** ** candidates *)
Section Candidates.
Variable p : problem.
Hypothesis gcd_pos : 0 < p_gcd p.

Record candidate (h : heap Z) (t : tree Z) (cant_use : list Z) (sim : list Z) (o : op) (cost : Z) : Prop := {
  cd_sensible : sensible h t o;
  cd_priced : priced h t o cost;
  cd_sim : Permutation (sim ++ taken h t o) (t_source_values t ++ given h t o);
  cd_sorted : StronglySorted Z.le sim;
  cd_limit : forall is, o = OMerge is -> zsum (taken h t o) <= 1200;
  cd_half : forall i c, o = OExtract i c -> 2 * c < zsum (taken h t o);
  cd_past : forall a v, In a (op_nodes t o) -> In v (given h t o) -> ~ In v (fl_items (n_past (get h a)));
  cd_gcd : forall v, In v (given h t o) -> p_gcd p <= v;
  cd_cant : forall v, In v (taken h t o) -> ~ In v cant_use;
  cd_new : ~ In sim (fl_items (t_past t))
}.

Lemma zmem_in v l : zmem v l = true <-> In v l.
Proof. apply (existsb_eqb Z.eqb Z_eq_decides). Qed.
Lemma zmem_out v l : zmem v l = false -> ~ In v l.
Proof. intros H I. apply zmem_in in I. congruence. Qed.

Lemma enumerate_in {A} (l : list A) i x : In (i, x) (enumerate l) -> nth_error l i = Some x.
Proof.
  unfold enumerate. assert (H : forall k l, In (i, x) (combine (seq k (length l)) l) -> (k <= i)%nat /\ nth_error l (i - k) = Some x).
  { clear. intros k l. revert k. induction l as [|y l IH]; intros k H; [destruct H|]. cbn in H. destruct H as [[= -> ->]|H].
    - split; [lia|]. rewrite Nat.sub_diag. reflexivity.
    - apply IH in H. destruct H as [B E]. split; [lia|]. replace (i - k)%nat with (S (i - S k)) by lia. exact E. }
  intros I. apply H in I. rewrite Nat.sub_0_r in I. tauto.
Qed.
Lemma zrange_in x lo hi : In x (zrange lo hi) <-> lo <= x < hi.
Proof.
  unfold zrange. rewrite in_map_iff. split.
  - intros (i & <- & Hi). apply in_seq in Hi. lia.
  - intros H. exists (Z.to_nat (x - lo)). split; [lia|]. apply in_seq. lia.
Qed.

Section Gen.
Variables (h : heap Z) (t : tree Z) (N : nat -> Prop) (cant_use : list Z).
Hypothesis W : wf h t N.
Hypothesis CNT : t_n_sources t = Z.of_nat (length (t_sources t)).
Variable J : nat -> state -> Prop.
Variable X : exn -> state -> Prop.
Variable yield_ : list Z -> op -> Z -> M bool.
Hypothesis J_mono : forall n m s, (n <= m)%nat -> J n s -> J m s.
Hypothesis J_counters : forall n a b c d s, J n s -> J n (with_counters a b c d s).
Hypothesis J_yield : forall sim o cost n s, candidate h t cant_use sim o cost -> J n s -> t_size t + cost <= s_best_size s ->
  wp (yield_ sim o cost) (fun _ s' => J (S n) s' /\ (s_best_size s' = s_best_size s \/ s_best_size s' = t_size t + cost)) X s.

Lemma source_value i a : nth_error (t_sources t) i = Some a ->
  (i < length (t_sources t))%nat /\ nth i (t_sources t) O = a /\ In a (t_sources t) /\
  In (value h a) (t_source_values t) /\ fl_inv (n_past (get h a)) /\ 0 < value h a /\ N a.
Proof.
  intros E. assert (B : (i < length (t_sources t))%nat) by (apply nth_error_Some; congruence).
  assert (I : In a (t_sources t)) by (apply (nth_error_In _ _ E)).
  split; [exact B|]. split; [apply nth_error_nth; exact E|]. split; [exact I|].
  destruct (source_facts h t N a W I) as (Na & _ & _ & _ & F & P).
  split; [rewrite (wf_values _ _ _ W); apply in_map, I|]. auto.
Qed.
Lemma not_contains v a : fl_inv (n_past (get h a)) -> fl_contains Z.eqb v (n_past (get h a)) = false -> ~ In v (fl_items (n_past (get h a))).
Proof. intros F E I. apply (fl_contains_in Z.eqb Z_eq_decides v _ F) in I. congruence. Qed.

(** an operation on one source *)
Lemma one_source_sim i a gs : nth_error (t_sources t) i = Some a ->
  exists sim, get_sim_without (value h a) (t_source_values t) = Ok sim /\
    forall sim', Permutation sim' (gs ++ sim) -> Permutation (sim' ++ [value h a]) (t_source_values t ++ gs).
Proof.
  intros E. destruct (source_value i a E) as (_ & _ & _ & I & _). destruct (py_remove_ok _ _ I) as (sim & ES & P & _).
  exists sim. split; [exact ES|]. intros sim' P'. rewrite P', P. rewrite <- app_assoc, (Permutation_app_comm (value h a :: sim) gs).
  apply Permutation_app_head. rewrite Permutation_app_comm. reflexivity.
Qed.

Lemma taken_one i a (E : nth_error (t_sources t) i = Some a) :
  forall o, (match o with OExtract j _ | ODivide j _ | OSplit j _ => j = i | OMerge _ => False end) ->
  op_nodes t o = [a] /\ taken h t o = [value h a] /\ zsum (taken h t o) = value h a.
Proof.
  destruct (source_value i a E) as (_ & EN & _).
  intros o Ho. assert (O : op_nodes t o = [a]) by (destruct o; try contradiction; cbn; rewrite Ho, EN; reflexivity).
  unfold taken. rewrite O. cbn [map]. rewrite zsum_cons, zsum_nil, Z.add_0_r. auto.
Qed.

Lemma seen_in_past sim s : already_seen t sim s = (Ok false, s) -> ~ In sim (fl_items (t_past t)).
Proof.
  unfold already_seen, gets. intros [= E] I. apply orb_false_iff in E. destruct E as [E _].
  apply (fl_contains_in tuple_eqb tuple_Z_decides sim _ (wf_tpast _ _ _ W)) in I. congruence.
Qed.
Lemma wp_seen sim (Q : bool -> state -> Prop) s : Q true s -> (~ In sim (fl_items (t_past t)) -> Q false s) ->
  wp (already_seen t sim) Q X s.
Proof.
  intros HT HF. unfold wp. destruct (already_seen t sim s) as [[b|e] s'] eqn:E; [|unfold already_seen, gets in E; discriminate].
  assert (s' = s) by (unfold already_seen, gets in E; congruence). subst s'. destruct b; [exact HT|]. apply HF, (seen_in_past sim s E).
Qed.

Ltac skip := apply wp_ret; match goal with HJ : J ?n ?s |- _ => apply (J_mono n); [lia|exact HJ] end.

Lemma extract_sims_ok R n s : s_heap s = h -> J n s ->
  wp (extract_sims R p t cant_use yield_) (fun _ s' => J (n + length (extract_candidates h t)) s') X s.
Proof.
  intros EH HJ0. unfold extract_sims. apply wp_bind, wp_gets. rewrite EH. apply wp_bind.
  eapply wp_conseq; [|apply (wp_for_each 1 J X); [exact J_mono| |exact HJ0]].
  { intros oo s' H. apply wp_ret. eapply J_mono; [|exact H]; lia. }
  clear n s EH HJ0. intros [[i a] c] seen n s I HJ.
  unfold extract_candidates in I. apply in_flat_map in I. destruct I as ([i' a'] & I1 & I2). cbn [fst snd] in I2.
  apply in_map_iff in I2. destruct I2 as (c' & [= -> -> ->] & I2). apply zrange_in in I2. apply enumerate_in in I1.
  change (n_value (get h a)) with (value h a) in *.
  destruct (source_value i a I1) as (Bi & EN & Ia & Iv & FP & PV & Na).
  apply wp_bind, wp_solving. intros b. apply (J_counters _ (S (s_reads s)) (s_scores s) (s_picks s) (s_sames s)) in HJ.
  set (s1 := with_counters _ _ _ _ s) in *. clearbody s1. destruct (negb b); [skip|].
  destruct (pair_mem _ _ _); [skip|]. destruct (zmem (value h a) cant_use) eqn:EC; [skip|].
  destruct (gcd_incompatible (p_gcd p) c) eqn:G1; [skip|].
  assert (B2 : 0 < c < value h a /\ 3 <= value h a /\ c < value h a - c).
  { assert (2 * ((value h a - 1) / 2) <= value h a - 1) by (apply Z.mul_div_le; lia). lia. }
  destruct (extract_cost_pos (value h a) c) as (cost & EK & _); [lia|lia|].
  apply wp_bind. eapply wp_lift; [exact EK|]. apply wp_bind, wp_gets.
  destruct (t_size t + cost >? s_best_size s1) eqn:EB; [skip|].
  destruct (value h a - c =? c) eqn:ED; [skip|]. destruct (gcd_incompatible (p_gcd p) (value h a - c)) eqn:G2; [skip|].
  destruct (fl_contains Z.eqb c (n_past (get h a)) || fl_contains Z.eqb (value h a - c) (n_past (get h a))) eqn:EP; [skip|].
  apply orb_false_iff in EP. destruct EP as [EP1 EP2].
  destruct (one_source_sim i a [c; value h a - c] I1) as (sim & ES & PS).
  apply wp_bind. eapply wp_lift; [exact ES|]. apply wp_bind. apply wp_seen; [skip|]. intros NEW. apply wp_bind.
  set (sim' := insort (value h a - c) (insort c sim)) in *.
  assert (P' : Permutation sim' ([c; value h a - c] ++ sim)).
  { unfold sim'. rewrite insort_z_perm, insort_z_perm. apply perm_swap. }
  destruct (taken_one i a I1 (OExtract i c) eq_refl) as (ON & TK & ZS).
  eapply wp_conseq; [|apply (J_yield sim' (OExtract i c) cost n s1); [|exact HJ|lia]].
  - intros go s' [H _]. apply wp_ret. eapply J_mono; [|exact H]; lia.
  - constructor.
    + cbn [sensible]. rewrite ZS. repeat split; try assumption; try lia.
    + cbn [priced]. rewrite ZS. exact EK.
    + unfold given. rewrite ZS, TK. apply PS, P'.
    + unfold sim'. apply insort_z_sorted, insort_z_sorted.
      destruct (py_remove_ok _ _ Iv) as (sim0 & ES0 & _ & SO & _). unfold get_sim_without in ES. rewrite ES in ES0. injection ES0 as <-.
      apply SO, (wf_sorted _ _ _ W).
    + intros is E. discriminate.
    + intros i0 c0 [= <- <-]. rewrite ZS. lia.
    + rewrite ON. unfold given. rewrite ZS. intros x v [<-|[]] Hv. cbn in Hv.
      destruct Hv as [<-|[<-|[]]]; apply not_contains; assumption.
    + unfold given, gcd_incompatible in *. rewrite ZS. intros v Hv. cbn in Hv. destruct Hv as [<-|[<-|[]]]; lia.
    + rewrite TK. intros v [<-|[]]. apply zmem_out, EC.
    + exact NEW.
Qed.

Lemma iter_insort_perm k v l : Permutation (Nat.iter k (insort v) l) (repeat v k ++ l).
Proof. induction k as [|k IH]; [reflexivity|]. cbn [Nat.iter nat_rect repeat app]. change (Permutation (insort v (Nat.iter k (insort v) l)) (v :: repeat v k ++ l)).
  rewrite insort_z_perm, IH. reflexivity. Qed.
Lemma iter_insort_sorted k v l : StronglySorted Z.le l -> StronglySorted Z.le (Nat.iter k (insort v) l).
Proof. intros S. induction k as [|k IH]; [exact S|]. change (StronglySorted Z.le (insort v (Nat.iter k (insort v) l))).
  apply insort_z_sorted, IH. Qed.
Lemma sim_sorted i a sim : nth_error (t_sources t) i = Some a -> get_sim_without (value h a) (t_source_values t) = Ok sim -> StronglySorted Z.le sim.
Proof.
  intros E ES. destruct (source_value i a E) as (_ & _ & _ & I & _). destruct (py_remove_ok _ _ I) as (sim' & ES' & _ & S & _).
  unfold get_sim_without in ES. rewrite ES in ES'. injection ES' as <-. apply S, (wf_sorted _ _ _ W).
Qed.

Lemma divide_sims_ok R n s : s_heap s = h -> J n s ->
  wp (divide_sims R p t cant_use yield_) (fun _ s' => J (n + length (divide_candidates h t)) s') X s.
Proof.
  intros EH HJ0. unfold divide_sims. apply wp_bind, wp_gets. rewrite EH. apply wp_bind.
  eapply wp_conseq; [|apply (wp_for_each 1 J X); [exact J_mono| |exact HJ0]].
  { intros oo s' H. apply wp_ret. eapply J_mono; [|exact H]; lia. }
  clear n s EH HJ0. intros [[i a] d] seen n s I HJ.
  unfold divide_candidates in I. apply in_flat_map in I. destruct I as ([i' a'] & I1 & I2). cbn [fst snd] in I2.
  change (n_value (get h a')) with (value h a') in I2.
  apply in_map_iff in I2. destruct I2 as (d' & [= -> -> ->] & I2). apply filter_In in I2. destruct I2 as [I2 DV].
  apply zrange_in in I2. apply enumerate_in in I1. change (n_value (get h a)) with (value h a) in *.
  destruct (source_value i a I1) as (Bi & EN & Ia & Iv & FP & PV & Na).
  assert (DIV : (d | value h a)) by (apply Z.mod_divide; lia).
  apply wp_bind, wp_solving. intros b. apply (J_counters _ (S (s_reads s)) (s_scores s) (s_picks s) (s_sames s)) in HJ.
  set (s1 := with_counters _ _ _ _ s) in *. clearbody s1. destruct (negb b); [skip|].
  destruct (pair_mem _ _ _); [skip|]. destruct (zmem (value h a) cant_use) eqn:EC; [skip|].
  destruct (divide_cost_pos (value h a) d) as (cost & EK & _); [lia|lia|exact DIV|].
  apply wp_bind. eapply wp_lift; [exact EK|]. apply wp_bind, wp_gets.
  destruct (t_size t + cost >? s_best_size s1) eqn:EB; [skip|].
  destruct (fl_contains Z.eqb (value h a / d) (n_past (get h a)) || gcd_incompatible (p_gcd p) (value h a / d)) eqn:EP; [skip|].
  apply orb_false_iff in EP. destruct EP as [EP1 EP2].
  destruct (one_source_sim i a (repeat (value h a / d) (Z.to_nat d)) I1) as (sim & ES & PS).
  apply wp_bind. eapply wp_lift; [exact ES|]. apply wp_bind. apply wp_seen; [skip|]. intros NEW. apply wp_bind.
  destruct (taken_one i a I1 (ODivide i d) eq_refl) as (ON & TK & ZS).
  eapply wp_conseq; [|apply (J_yield _ (ODivide i d) cost n s1); [|exact HJ|lia]].
  - intros go s' [H _]. apply wp_ret. eapply J_mono; [|exact H]; lia.
  - constructor.
    + cbn [sensible]. rewrite ZS. repeat split; try assumption; try lia.
    + cbn [priced]. rewrite ZS. exact EK.
    + unfold given. rewrite ZS, TK. apply PS, iter_insort_perm.
    + apply iter_insort_sorted, (sim_sorted i a sim I1 ES).
    + intros is E. discriminate.
    + discriminate.
    + rewrite ON. unfold given. rewrite ZS. intros x v [<-|[]] Hv. apply repeat_spec in Hv. subst v. apply not_contains; assumption.
    + unfold given, gcd_incompatible in *. rewrite ZS. intros v Hv. apply repeat_spec in Hv. subst v. lia.
    + rewrite TK. intros v [<-|[]]. apply zmem_out, EC.
    + exact NEW.
Qed.

Lemma split_sims_ok R n s : s_heap s = h -> J n s ->
  wp (split_sims R p t cant_use yield_) (fun _ s' => J (n + length (t_sources t)) s') X s.
Proof.
  intros EH HJ0. unfold split_sims. apply wp_bind, wp_gets. rewrite EH. apply wp_bind, wp_gets.
  destruct (t_size t + split_cost >? s_best_size s) eqn:EB; [apply wp_ret; apply (J_mono n); [lia|exact HJ0]|].
  apply wp_bind.
  set (J' := fun n s => J n s /\ t_size t + split_cost <= s_best_size s).
  eapply wp_conseq; [|apply (wp_for_each 1 J' X)].
  { intros oo s' [H _]. apply wp_ret. eapply J_mono; [|exact H]. unfold enumerate. rewrite combine_length, seq_length, Nat.min_id, Nat.mul_1_l. apply Nat.le_refl. }
  { intros n1 m1 s1 L [H1 H2]. split; [apply (J_mono n1); [exact L|exact H1]|exact H2]. }
  2: { split; [exact HJ0|lia]. }
  clear n s EH HJ0 EB. intros [i a] seen n s I [HJ HB]. apply enumerate_in in I. change (n_value (get h a)) with (value h a) in *.
  destruct (source_value i a I) as (Bi & EN & Ia & Iv & FP & PV & Na).
  apply wp_bind, wp_solving. intros b. apply (J_counters _ (S (s_reads s)) (s_scores s) (s_picks s) (s_sames s)) in HJ.
  assert (HB1 : t_size t + split_cost <= s_best_size (with_counters (S (s_reads s)) (s_scores s) (s_picks s) (s_sames s) s)) by exact HB.
  set (s1 := with_counters _ _ _ _ s) in *. clearbody s1.
  assert (SK : wp (ret (Some (A := list Z) seen)) (fun _ s' => J' (n + 1)%nat s') X s1).
  { apply wp_ret. split; [apply (J_mono n); [lia|exact HJ]|exact HB1]. }
  assert (SK0 : forall o : option (list Z), wp (ret o) (fun _ s' => J' (n + 1)%nat s') X s1).
  { intros o. apply wp_ret. split; [apply (J_mono n); [lia|exact HJ]|exact HB1]. }
  destruct (negb b); [apply SK0|]. destruct (zmem (value h a) seen); [apply SK0|]. destruct (zmem (value h a) cant_use) eqn:EC; [apply SK0|].
  destruct (find _ conveyor_speeds) as [c|] eqn:EF; [|apply SK0]. apply find_some in EF. destruct EF as [IC GT].
  destruct (c =? 0); [apply SK0|]. rewrite Z.shiftl_mul_pow2 by lia. change (2 ^ 1) with 2. replace (c / 3 * 2) with (2 * (c / 3)) by lia.
  destruct (value h a <? 2 * (c / 3)) eqn:EV; [apply SK0|].
  destruct (gcd_incompatible (p_gcd p) (c / 3) || gcd_incompatible (p_gcd p) (value h a - 2 * (c / 3))) eqn:EG; [apply SK0|].
  apply orb_false_iff in EG. destruct EG as [G1 G2].
  destruct (fl_contains Z.eqb (c / 3) (n_past (get h a)) || fl_contains Z.eqb (value h a - 2 * (c / 3)) (n_past (get h a))) eqn:EP; [apply SK0|].
  apply orb_false_iff in EP. destruct EP as [EP1 EP2].
  destruct (one_source_sim i a [c / 3; c / 3; value h a - 2 * (c / 3)] I) as (sim & ES & PS).
  apply wp_bind. eapply wp_lift; [exact ES|]. apply wp_bind. apply wp_seen; [apply SK0|]. intros NEW. apply wp_bind.
  destruct (taken_one i a I (OSplit i c) eq_refl) as (ON & TK & ZS).
  eapply wp_conseq; [|apply (J_yield _ (OSplit i c) split_cost n s1); [|exact HJ|exact HB1]].
  - intros go s' [H HB2]. apply wp_ret. split; [eapply J_mono; [|exact H]; lia|lia].
  - unfold gcd_incompatible in *. constructor.
    + cbn [sensible]. rewrite ZS. repeat split; try assumption; try lia.
    + reflexivity.
    + unfold given. rewrite ZS, TK. apply PS. rewrite !insort_z_perm.
      apply (Permutation_trans (perm_swap _ _ _)). apply perm_skip, perm_swap.
    + apply insort_z_sorted, insort_z_sorted, insort_z_sorted, (sim_sorted i a sim I ES).
    + intros is E. discriminate.
    + discriminate.
    + rewrite ON. unfold given. rewrite ZS. intros x v [<-|[]] Hv. destruct Hv as [<-|[<-|[<-|[]]]]; apply not_contains; assumption.
    + unfold given. rewrite ZS. intros v Hv. destruct Hv as [<-|[<-|[<-|[]]]]; lia.
    + rewrite TK. intros v [<-|[]]. apply zmem_out, EC.
    + exact NEW.
Qed.

(** ** combinations *)
Lemma combinations_in {A} (l : list A) : forall k c, In c (combinations k l) ->
  length c = k /\ (forall x, In x c -> In x l) /\ (NoDup l -> NoDup c).
Proof.
  induction l as [|x l IH]; intros [|k] c H; cbn [combinations] in H.
  - destruct H as [<-|[]]. repeat split; auto.
  - destruct H.
  - destruct H as [<-|[]]. split; [reflexivity|]. split; [intros y []|constructor].
  - apply in_app_or in H. destruct H as [H|H].
    + apply in_map_iff in H. destruct H as (c' & <- & H). apply IH in H. destruct H as (L & S & ND). split; [cbn; lia|]. split.
      * intros y [->|Hy]; [left; reflexivity|right; auto].
      * intros N0. inversion N0; subst. constructor; [intros I; apply S in I; contradiction|auto].
    + apply IH in H. destruct H as (L & S & ND). split; [exact L|]. split; [intros y Hy; right; auto|].
      intros N0. inversion N0; auto.
Qed.
Lemma combinations_length {A} (l : list A) : forall k, (length (combinations k l) <= 2 ^ length l)%nat.
Proof.
  induction l as [|x l IH]; intros [|k]; cbn [combinations length].
  - cbn. lia.
  - cbn. lia.
  - assert (1 <= 2 ^ S (length l))%nat by (apply Nat.neq_0_lt_0, Nat.pow_nonzero; lia). lia.
  - rewrite app_length, map_length. pose proof (IH k). pose proof (IH (S k)). cbn [Nat.pow]. lia.
Qed.

(** a sublist picked by distinct positions *)
Lemma pick_perm {A} (d : A) (l : list A) is : NoDup is -> (forall i, In i is -> (i < length l)%nat) ->
  exists rest, Permutation l (map (fun i => nth i l d) is ++ rest).
Proof.
  intros ND B.
  assert (E : l = map (fun i => nth i l d) (seq 0 (length l))).
  { apply nth_ext with d d; [rewrite map_length, seq_length; reflexivity|]. intros n Hn.
    rewrite (nth_indep (map _ _) d (nth O l d)) by (rewrite map_length, seq_length; exact Hn).
    rewrite (map_nth (fun i => nth i l d)). rewrite seq_nth by exact Hn. reflexivity. }
  pose proof (filter_perm is (seq 0 (length l)) (seq_NoDup _ _) ND) as P.
  eexists. rewrite E at 1. rewrite (Permutation_map _ (P (fun i Hi => proj2 (in_seq _ _ _) (conj (Nat.le_0_l _) (B i Hi))))).
  rewrite map_app. reflexivity.
Qed.

Lemma merge_sims_ok R n s : s_heap s = h -> J n s ->
  wp (merge_sims R p t cant_use yield_)
    (fun _ s' => J (n + 2 ^ length (t_sources t) * length (t_sources t))%nat s') X s.
Proof.
  intros EH HJ0. unfold merge_sims. apply wp_bind, wp_gets. rewrite EH. apply wp_bind.
  rewrite CNT, Nat2Z.id. set (m := length (t_sources t)).
  eapply wp_conseq; [|apply (wp_for_each (2 ^ m) J X); [exact J_mono| |exact HJ0]].
  { intros oo s' H. apply wp_ret. eapply J_mono; [|exact H]. unfold zrange. rewrite map_length, seq_length. fold m.
    apply Nat.add_le_mono_l, Nat.mul_le_mono_l. lia. }
  clear n s EH HJ0. intros k [] n s Ik HJ0. apply zrange_in in Ik.
  apply wp_bind, wp_gets. destruct (t_size t + merge_cost k 1 >? s_best_size s) eqn:EB; [apply wp_ret; apply (J_mono n); [lia|exact HJ0]|].
  apply wp_bind. set (J' := fun n s => J n s /\ t_size t + merge_cost k 1 <= s_best_size s).
  eapply wp_conseq; [|apply (wp_for_each 1 J' X)].
  { intros o s' [H _]. apply wp_ret. eapply J_mono; [|exact H]. pose proof (combinations_length (seq 0 m) (Z.to_nat k)) as L.
    rewrite seq_length in L. rewrite Nat.mul_1_l. apply Nat.add_le_mono_l, L. }
  { intros n1 m1 s1 L [H1 H2]. split; [apply (J_mono n1); [exact L|exact H1]|exact H2]. }
  2: { split; [exact HJ0|lia]. }
  clear n s HJ0 EB. intros is seen n s I [HJ HB]. apply combinations_in in I. destruct I as (LI & SI & ND).
  specialize (ND (seq_NoDup _ _)).
  assert (BI : forall i, In i is -> (i < m)%nat) by (intros i Hi; apply SI, in_seq in Hi; lia).
  apply wp_bind, wp_solving. intros b. apply (J_counters _ (S (s_reads s)) (s_scores s) (s_picks s) (s_sames s)) in HJ.
  assert (HB1 : t_size t + merge_cost k 1 <= s_best_size (with_counters (S (s_reads s)) (s_scores s) (s_picks s) (s_sames s) s)) by exact HB.
  set (s1 := with_counters _ _ _ _ s) in *. clearbody s1.
  assert (SK0 : forall o : option (list (list Z)), wp (ret o) (fun _ s' => J' (n + 1)%nat s') X s1).
  { intros o. apply wp_ret. split; [apply (J_mono n); [lia|exact HJ]|exact HB1]. }
  destruct (negb b); [apply SK0|].
  set (vs := map (fun i => nth i (t_source_values t) 0) is). set (nodes := map (fun i => nth i (t_sources t) O) is).
  destruct (existsb (tuple_eqb vs) seen); [apply SK0|]. destruct (existsb (fun v => zmem v cant_use) vs) eqn:EC; [apply SK0|].
  destruct (gcd_incompatible (p_gcd p) (zsum vs)) eqn:EG; [apply SK0|].
  destruct ((zsum vs >? conveyor_speed_limit) || existsb (fun a => fl_contains Z.eqb (zsum vs) (n_past (get h a))) nodes) eqn:EP; [apply SK0|].
  apply orb_false_iff in EP. destruct EP as [EL EP].
  assert (TK : taken h t (OMerge is) = vs).
  { unfold taken, vs. cbn [op_nodes]. rewrite map_map. apply map_ext_in. intros i Hi. rewrite (wf_values _ _ _ W).
    rewrite (nth_indep (map _ _) 0 (value h O)) by (rewrite map_length; apply BI, Hi). symmetry. apply map_nth. }
  assert (LV : length (t_source_values t) = m) by (rewrite (wf_values _ _ _ W); apply map_length).
  destruct (pick_perm 0 (t_source_values t) is ND) as (rest & PR). { intros i Hi. rewrite LV. apply BI, Hi. }
  fold vs in PR. destruct (py_remove_all vs (t_source_values t) rest PR) as (sim & ES & PS & SS).
  apply wp_bind. eapply wp_lift; [exact ES|]. apply wp_bind. apply wp_seen; [apply SK0|]. intros NEW. apply wp_bind.
  eapply wp_conseq; [|apply (J_yield _ (OMerge is) (merge_cost k 1) n s1); [|exact HJ|exact HB1]].
  - intros go s' [H HB2]. apply wp_ret. split; [eapply J_mono; [|exact H]; lia|lia].
  - constructor.
    + cbn [sensible]. split; [lia|]. split; [exact ND|exact BI].
    + cbn [priced]. rewrite LI. f_equal. lia.
    + unfold given. rewrite TK. rewrite insort_z_perm, PS, PR. rewrite <- app_assoc, (Permutation_app_comm vs (rest ++ [zsum vs])).
      rewrite (Permutation_app_comm rest [zsum vs]). reflexivity.
    + apply insort_z_sorted, SS, (wf_sorted _ _ _ W).
    + intros is' _. rewrite TK. unfold conveyor_speed_limit in EL. cbn in EL. lia.
    + discriminate.
    + cbn [op_nodes]. fold nodes. unfold given. rewrite TK. intros a v Ha [<-|[]].
      assert (Ia : In a (t_sources t)). { apply in_map_iff in Ha. destruct Ha as (i & <- & Hi). apply nth_In, BI, Hi. }
      apply not_contains; [apply (source_facts h t N a W Ia)|]. apply not_true_iff_false. intros F.
      apply not_true_iff_false in EP. apply EP. apply existsb_exists. exists a. auto.
    + unfold given, gcd_incompatible in *. rewrite TK. intros v [<-|[]]. lia.
    + rewrite TK. intros v Hv Iv. apply not_true_iff_false in EC. apply EC. apply existsb_exists. exists v. split; [exact Hv|]. apply zmem_in, Iv.
    + exact NEW.
Qed.
End Gen.
End Candidates.
