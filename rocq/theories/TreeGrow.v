(** Applying an operation to a tree and adding its result keeps the invariant. *)
From Verif Require Import Base BaseLemmas Cost Utils UtilsSpec UtilsProofs Fractions Load Tree TreeSpec HeapLemmas CopyProofs TreeInv.
Open Scope Z_scope.

(** what an operation does to the heap: the open nodes [A] get the new children
    [cs], which have [A] as parents *)
Record grown (h h1 : heap Z) (A cs : list nat) : Prop := {
  gr_cs : cs = seq (length h) (length cs);
  gr_len : length h1 = (length h + length cs)%nat;
  gr_old : forall b, (b < length h)%nat -> ~ In b A -> get h1 b = get h b;
  gr_used : forall b, In b A -> exists own,
    get h1 b = set_expands (n_expands (get h b) ++ own) (set_children cs (get h b)) /\
    ((2 <= length cs)%nat -> split_tags (value h b) (map (value h1) cs) own) /\
    ((length cs < 2)%nat -> own = []);
  gr_new : forall c, In c cs ->
    parents h1 c = A /\ children h1 c = [] /\ n_id (get h1 c) = c /\ 0 < value h1 c /\
    n_expands (get h1 c) = (if (3 <? length A)%nat then [TMerge 3] else []) /\
    fl_inv (n_past (get h1 c)) /\ In (value h1 c) (fl_items (n_past (get h1 c))) /\
    (forall b v, In b A -> In v (fl_items (n_past (get h b))) -> In v (fl_items (n_past (get h1 c)))) /\
    (forall v, In v (fl_items (n_past (get h1 c))) -> v = value h1 c \/ exists b, In b A /\ In v (fl_items (n_past (get h b))));
  gr_shape : (exists a, A = [a] /\ (2 <= length cs)%nat /\ zsum (map (value h1) cs) = value h a) \/
             (exists c, (2 <= length A)%nat /\ cs = [c] /\ value h1 c = zsum (map (value h) A))
}.

Lemma extends_intro (h h' : heap Z) : (length h <= length h')%nat ->
  (forall a, (a < length h)%nat -> get h' a = get h a) -> extends h h'.
Proof.
  intros L H. exists (skipn (length h) h'). rewrite <- (firstn_skipn (length h) h') at 1. f_equal.
  apply nth_ext with (d := dead_node) (d' := dead_node); [apply firstn_length_le; exact L|].
  intros n Hn. rewrite firstn_length_le in Hn by exact L. change (nth n h dead_node) with (get h n); rewrite <- (H n Hn). unfold get.
  rewrite <- (firstn_skipn (length h) h') at 2. rewrite app_nth1 by (rewrite firstn_length_le; lia). reflexivity.
Qed.

Definition mem (A : list nat) (a : nat) : bool := existsb (Nat.eqb a) A.

Lemma node_le_total h a b : node_le (V := Z) h a b = true \/ node_le h b a = true.
Proof. unfold node_le. cbn. lia. Qed.
Lemma node_le_trans h a b c : node_le (V := Z) h a b = true -> node_le h b c = true -> node_le h a c = true.
Proof. unfold node_le. cbn. lia. Qed.
Lemma sorted_nodes h l : is_sorted (node_le (V := Z) h) l <-> StronglySorted Z.le (map (value h) l).
Proof.
  unfold is_sorted. induction l as [|a l IH]; [split; constructor|]. cbn [map]. split; intros H; inversion H; subst; constructor.
  - apply IH. assumption.
  - rewrite Forall_forall in *. intros v Hv. apply in_map_iff in Hv. destruct Hv as (b & <- & Hb). specialize (H3 b Hb).
    unfold node_le in H3. cbn in H3. unfold value. lia.
  - apply IH. assumption.
  - rewrite Forall_forall in *. intros b Hb. specialize (H3 _ (in_map (value h) _ _ Hb)). unfold node_le. cbn. unfold value in H3. lia.
Qed.
Lemma sorted_filter {A} (R : A -> A -> Prop) f l : StronglySorted R l -> StronglySorted R (filter f l).
Proof. induction 1 as [|x l S IH F]; [constructor|]. cbn. destruct (f x); [|exact IH]. constructor; [exact IH|].
  rewrite Forall_forall in *. intros y Hy. apply filter_In in Hy. apply F. tauto. Qed.
Lemma nodup_app (B l : list nat) : NoDup l -> NoDup B -> (forall a, In a B -> ~ In a l) -> NoDup (B ++ l).
Proof. induction B as [|b B IH]; intros Nl NB D; [exact Nl|]. inversion NB; subst. cbn. constructor.
  - rewrite in_app_iff. intros [I|I]; [contradiction|]. apply (D b); [left; reflexivity|exact I].
  - apply IH; auto. intros a Ha. apply D. right. exact Ha. Qed.
Lemma filter_perm A (l : list nat) : NoDup l -> NoDup A -> (forall a, In a A -> In a l) ->
  Permutation l (A ++ filter (fun a => negb (mem A a)) l).
Proof.
  intros N1 N2 H. apply NoDup_Permutation; [exact N1| |].
  - apply nodup_app; [apply NoDup_filter, N1|exact N2|]. intros a Ha I. apply filter_In in I. destruct I as [_ I].
    apply negb_true_iff, not_true_iff_false in I. apply I. unfold mem. apply mem_in. exact Ha.
  - intros x. rewrite in_app_iff, filter_In. split.
    + intros I. destruct (mem A x) eqn:M; [left; apply mem_in; exact M|right; auto].
    + intros [I|[I _]]; [apply H|]; exact I.
Qed.

Section Add.
Variables (h h1 : heap Z) (t : tree Z) (N : nat -> Prop) (A cs : list nat) (cost : Z).
Hypothesis W : wf h t N.
Hypothesis G : grown h h1 A cs.
Hypothesis A_open : forall a, In a A -> In a (t_sources t).
Hypothesis A_nd : NoDup A.

Let N' (a : nat) : Prop := N a \/ In a cs.
Let kept := filter (fun a => negb (mem A a)) (t_sources t).
Let sources' := fold_left (fun l a => insort_by (node_le h1) a l) cs kept.
Let h2 := set_levels (t_current_level t + 1) sources' h1.
Let t2 := MkTree (t_roots t) sources' (t_levels t ++ [sources'])
          (fl_append tuple_eqb (t_source_values t) (t_past t))
          (t_current_level t + 1) (node_values h1 sources') (Z.of_nat (length sources')) (t_size t + cost).

Lemma A_ne : A <> [].
Proof. destruct (gr_shape _ _ _ _ G) as [(a & -> & _)|(c & L & _)]; [discriminate|]. intros E. rewrite E in L. cbn in L. lia. Qed.
Lemma cs_ne : cs <> [].
Proof. destruct (gr_shape _ _ _ _ G) as [(a & _ & L & _)|(c & _ & -> & _)]; [|discriminate]. intros E. rewrite E in L. cbn in L. lia. Qed.
Lemma cs_in c : In c cs <-> (length h <= c < length h1)%nat.
Proof. rewrite (gr_cs _ _ _ _ G), in_seq, (gr_len _ _ _ _ G). reflexivity. Qed.
Lemma cs_nd : NoDup cs.
Proof. rewrite (gr_cs _ _ _ _ G). apply seq_NoDup. Qed.
Lemma A_N a : In a A -> N a /\ children h a = [].
Proof. intros Ha. apply A_open, (wf_open _ _ _ W) in Ha. exact Ha. Qed.
Lemma old_not_new a : N a -> ~ In a cs.
Proof. intros Na. rewrite cs_in. pose proof (wf_bound _ _ _ W a Na). lia. Qed.

Lemma add_runs : tree_add h1 t cs cost = Ok (h2, t2).
Proof.
  unfold tree_add. pose proof cs_ne. destruct cs as [|c0 cs'] eqn:E; [congruence|].
  destruct (gr_new _ _ _ _ G c0) as (P & _); [left; reflexivity|].
  change (n_parents (get h1 c0)) with (parents h1 c0). rewrite P, (wf_last _ _ _ W).
  unfold t2, h2, sources', kept. reflexivity.
Qed.

(** fields in the final heap *)
Lemma keep2 {B} (f : node Z -> B) a : (forall o n, f (set_level o n) = f n) -> f (get h2 a) = f (get h1 a).
Proof. intros Hf. apply (get_set_levels f). exact Hf. Qed.
Lemma old_data {B} (f : node Z -> B) a : N a -> (forall l n, f (set_children l n) = f n) ->
  (forall l n, f (set_expands l n) = f n) -> f (get h1 a) = f (get h a).
Proof.
  intros Na F1 F2. destruct (in_dec Nat.eq_dec a A) as [I|I].
  - destruct (gr_used _ _ _ _ G a I) as (own & -> & _). rewrite F2, F1. reflexivity.
  - rewrite (gr_old _ _ _ _ G); [reflexivity|apply (wf_bound _ _ _ W a Na)|exact I].
Qed.
Lemma val2 a : N a -> value h2 a = value h a.
Proof. intros Na. unfold value. rewrite (keep2 n_value) by reflexivity. apply (old_data n_value); auto. Qed.
Lemma par2 a : N a -> parents h2 a = parents h a.
Proof. intros Na. unfold parents. rewrite (keep2 n_parents) by reflexivity. apply (old_data n_parents); auto. Qed.
Lemma chi2_kept a : N a -> ~ In a A -> children h2 a = children h a.
Proof. intros Na I. unfold children. rewrite (keep2 n_children) by reflexivity.
  rewrite (gr_old _ _ _ _ G); [reflexivity|apply (wf_bound _ _ _ W a Na)|exact I]. Qed.
Lemma chi2_used a : In a A -> children h2 a = cs.
Proof. intros I. unfold children. rewrite (keep2 n_children) by reflexivity.
  destruct (gr_used _ _ _ _ G a I) as (own & -> & _). reflexivity. Qed.
Lemma par2_new c : In c cs -> parents h2 c = A.
Proof. intros Hc. unfold parents. rewrite (keep2 n_parents) by reflexivity. apply (gr_new _ _ _ _ G c Hc). Qed.
Lemma chi2_new c : In c cs -> children h2 c = [].
Proof. intros Hc. unfold children. rewrite (keep2 n_children) by reflexivity. apply (gr_new _ _ _ _ G c Hc). Qed.
Lemma val21 a : value h2 a = value h1 a.
Proof. unfold value. apply (keep2 n_value). reflexivity. Qed.
Lemma id2 a : N a -> n_id (get h2 a) = n_id (get h a).
Proof. intros Na. rewrite (keep2 n_id) by reflexivity. apply (old_data n_id); auto. Qed.
Lemma id2_new c : In c cs -> n_id (get h2 c) = c.
Proof. intros Hc. rewrite (keep2 n_id) by reflexivity. apply (gr_new _ _ _ _ G c Hc). Qed.

Lemma sources'_perm : Permutation sources' (cs ++ kept).
Proof. apply fold_insort_perm. Qed.
Lemma sources'_in a : In a sources' <-> In a cs \/ (In a (t_sources t) /\ ~ In a A).
Proof.
  split; intros H.
  - apply (Permutation_in _ sources'_perm), in_app_or in H. destruct H as [H|H]; [left; exact H|right].
    unfold kept in H. apply filter_In in H. destruct H as [H1 H2]. split; [exact H1|].
    apply negb_true_iff, not_true_iff_false in H2. unfold mem in H2. rewrite mem_in in H2. exact H2.
  - apply (Permutation_in _ (Permutation_sym sources'_perm)), in_or_app. destruct H as [H|[H1 H2]]; [left; exact H|right].
    unfold kept. apply filter_In. split; [exact H1|]. apply negb_true_iff, not_true_iff_false. unfold mem. rewrite mem_in. exact H2.
Qed.
Lemma sources'_N a : In a sources' -> N' a.
Proof. rewrite sources'_in. intros [H|[H _]]; [right; exact H|left]. apply (wf_open _ _ _ W) in H. tauto. Qed.
Lemma N'_bound a : N' a -> (a < length h1)%nat.
Proof. intros [H|H]; [|apply cs_in in H; lia]. pose proof (wf_bound _ _ _ W a H). rewrite (gr_len _ _ _ _ G). lia. Qed.
Lemma len2 : length h2 = length h1.
Proof. apply set_levels_length. Qed.
Lemma lev2_open a : In a sources' -> level h2 a = Some (t_current_level t + 1).
Proof. intros H. unfold level, h2. rewrite get_set_levels_in; [reflexivity|exact H|apply N'_bound, sources'_N, H]. Qed.
Lemma lev2_inner a : N a -> ~ In a sources' -> level h2 a = level h a.
Proof. intros Na H. unfold level, h2. rewrite get_set_levels_other by exact H. apply (old_data n_level); auto. Qed.
Lemma chi2_step a b : N a -> In b (children h a) -> In b (children h2 a).
Proof. intros Na Hb. rewrite chi2_kept; [exact Hb|exact Na|]. intros I. apply A_N in I. destruct I as [_ I]. rewrite I in Hb. destruct Hb. Qed.
Lemma below2 r a : N r -> below h r a -> below h2 r a.
Proof.
  intros Nr B. induction B as [|r a b B IH Hb]; [constructor|]. eapply below_step; [apply IH, Nr|].
  apply chi2_step; [|exact Hb]. apply (below_closed h N r a (wf_child _ _ _ W) Nr B).
Qed.
Lemma some_A : exists a, In a A.
Proof. pose proof A_ne. destruct A as [|a l]; [congruence|]. exists a. left. reflexivity. Qed.
Lemma not_A a : N a -> children h a <> [] -> ~ In a A.
Proof. intros Na H I. apply A_N in I. tauto. Qed.
Lemma map_val2 l : (forall a, In a l -> N a) -> map (value h2) l = map (value h) l.
Proof. intros H. apply map_ext_in. intros a Ha. apply val2. auto. Qed.
Lemma map_val21 l : map (value h2) l = map (value h1) l.
Proof. apply map_ext. apply val21. Qed.

Lemma add_wf : wf h2 t2 N'.
Proof.
  constructor; cbn [t_roots t_sources t_levels t_past t_current_level t_source_values t_size t2].
  - intros a Ha. rewrite len2. apply N'_bound, Ha.
  - intros r Hr. left. apply (wf_roots _ _ _ W), Hr.
  - apply (wf_roots_nd _ _ _ W).
  - intros a b [Na|Hc] Hb.
    + destruct (in_dec Nat.eq_dec a A) as [I|I].
      * rewrite chi2_used in Hb by exact I. right. exact Hb.
      * rewrite chi2_kept in Hb by assumption. left. apply (wf_child _ _ _ W a b Na Hb).
    + rewrite chi2_new in Hb by exact Hc. destruct Hb.
  - intros a b [Na|Hc] Hb.
    + rewrite par2 in Hb by exact Na. left. apply (wf_parent _ _ _ W a b Na Hb).
    + rewrite par2_new in Hb by exact Hc. left. apply A_N, Hb.
  - intros a b [Na|Ha] [Nb|Hb].
    + rewrite par2 by exact Nb. destruct (in_dec Nat.eq_dec a A) as [I|I].
      * rewrite chi2_used by exact I. rewrite <- (wf_links _ _ _ W a b Na Nb).
        destruct (A_N a I) as [_ E]. rewrite E. split; [intros H; exfalso; apply (old_not_new b Nb H)|intros []].
      * rewrite chi2_kept by assumption. apply (wf_links _ _ _ W a b Na Nb).
    + rewrite par2_new by exact Hb. destruct (in_dec Nat.eq_dec a A) as [I|I].
      * rewrite chi2_used by exact I. tauto.
      * rewrite chi2_kept by assumption. split; [|contradiction]. intros H. exfalso.
        apply (old_not_new b (wf_child _ _ _ W a b Na H) Hb).
    + rewrite chi2_new, par2 by assumption. split; [intros []|]. intros H. exfalso.
      apply (old_not_new a (wf_parent _ _ _ W b a Nb H) Ha).
    + rewrite chi2_new, par2_new by assumption. split; [intros []|]. intros H. exfalso. apply A_N in H. apply (old_not_new a (proj1 H) Ha).
  - intros a [Na|Ha].
    + rewrite par2 by exact Na. split; [|apply (wf_nd _ _ _ W a Na)].
      destruct (in_dec Nat.eq_dec a A) as [I|I]; [rewrite chi2_used by exact I; apply cs_nd|].
      rewrite chi2_kept by assumption. apply (wf_nd _ _ _ W a Na).
    + rewrite chi2_new, par2_new by exact Ha. split; [constructor|exact A_nd].
  - intros a [Na|Ha].
    + rewrite par2 by exact Na. apply (wf_top _ _ _ W a Na).
    + rewrite par2_new by exact Ha. split; [intros E; destruct (A_ne E)|]. intros H. exfalso.
      apply (old_not_new a (wf_roots _ _ _ W a H) Ha).
  - intros a [Na|Ha]; [|left; apply chi2_new, Ha].
    destruct (in_dec Nat.eq_dec a A) as [I|I].
    + right. unfold splits, merged. rewrite chi2_used by exact I. destruct (gr_shape _ _ _ _ G) as [(a' & EA & L & S)|(c & L & EC & S)].
      * left. rewrite EA in I. destruct I as [->|[]]. split; [exact L|]. split.
        -- apply Forall_forall. intros c Hc. rewrite par2_new by exact Hc. exact EA.
        -- rewrite map_val21, S, val2 by exact Na. reflexivity.
      * right. assert (Ic : In c cs) by (rewrite EC; left; reflexivity). exists c. rewrite par2_new by exact Ic.
        split; [exact EC|]. split; [exact I|]. split; [exact L|]. split.
        -- apply Forall_forall. intros q Hq. rewrite chi2_used by exact Hq. exact EC.
        -- rewrite val21, S. symmetry. f_equal. apply map_val2. intros b Hb. apply A_N, Hb.
    + rewrite chi2_kept by assumption. destruct (wf_flow _ _ _ W a Na) as [H|[H|H]]; [left; exact H| |]; right.
      * left. destruct H as (H1 & H2 & H3). unfold splits. rewrite chi2_kept by assumption. split; [exact H1|].
        assert (NC : forall c, In c (children h a) -> N c) by (intros c; apply (wf_child _ _ _ W a c Na)). split.
        -- rewrite Forall_forall in *. intros c Hc. rewrite par2 by auto. auto.
        -- rewrite map_val2, val2 by auto. exact H3.
      * right. destruct H as (m & H1 & H2 & H3 & H4 & H5).
        assert (Nm : N m) by (apply (wf_child _ _ _ W a m Na); rewrite H1; left; reflexivity).
        exists m. rewrite chi2_kept, par2 by assumption. split; [exact H1|]. split; [exact H2|]. split; [exact H3|].
        assert (NP : forall q, In q (parents h m) -> N q) by (intros q; apply (wf_parent _ _ _ W m q Nm)). split.
        -- rewrite Forall_forall in *. intros q Hq. rewrite chi2_kept; [auto|auto|].
           apply not_A; [auto|]. rewrite (H4 q Hq). discriminate.
        -- rewrite val2, map_val2 by auto. exact H5.
  - intros a [Na|Ha]; [rewrite val2 by exact Na; apply (wf_pos _ _ _ W a Na)|].
    rewrite val21. apply (gr_new _ _ _ _ G a Ha).
  - intros a b [Na|Ha] [Nb|Hb].
    + rewrite !id2 by assumption. apply (wf_ids _ _ _ W a b Na Nb).
    + rewrite (id2 a), (id2_new b) by assumption. intros E. pose proof (wf_id_bound _ _ _ W a Na). apply cs_in in Hb. lia.
    + rewrite (id2 b), (id2_new a) by assumption. intros E. pose proof (wf_id_bound _ _ _ W b Nb). apply cs_in in Ha. lia.
    + rewrite !id2_new by assumption. auto.
  - intros a Ha. rewrite len2. destruct Ha as [Na|Ha].
    + rewrite id2 by exact Na. pose proof (wf_id_bound _ _ _ W a Na). rewrite (gr_len _ _ _ _ G). lia.
    + rewrite id2_new by exact Ha. apply cs_in in Ha. lia.
  - intros a. rewrite sources'_in. split.
    + intros [H|[H1 H2]]; [split; [right; exact H|apply chi2_new, H]|].
      apply (wf_open _ _ _ W) in H1. destruct H1 as [Na E]. split; [left; exact Na|]. rewrite chi2_kept by assumption. exact E.
    + intros [[Na|Hc] E]; [|left; exact Hc]. right. destruct (in_dec Nat.eq_dec a A) as [I|I].
      * exfalso. rewrite chi2_used in E by exact I. apply (cs_ne E).
      * split; [|exact I]. apply (wf_open _ _ _ W). split; [exact Na|]. rewrite chi2_kept in E by assumption. exact E.
  - apply (Permutation_NoDup (Permutation_sym sources'_perm)).
    apply nodup_app; [apply NoDup_filter, (wf_open_nd _ _ _ W)|apply cs_nd|]. intros a Ha I. unfold kept in I. apply filter_In in I.
    destruct I as [I _]. apply (wf_open _ _ _ W) in I. apply (old_not_new a (proj1 I) Ha).
  - rewrite map_val21. reflexivity.
  - change (node_values h1 sources') with (map (value h1) sources'). apply sorted_nodes. unfold sources'.
    apply fold_insort_sorted; [apply node_le_total|apply node_le_trans|]. apply sorted_filter. fold (is_sorted (node_le h1) (t_sources t)).
    apply sorted_nodes. replace (map (value h1) (t_sources t)) with (map (value h) (t_sources t)); [rewrite <- (wf_values _ _ _ W); apply (wf_sorted _ _ _ W)|].
    apply map_ext_in. intros a Ha. apply (wf_open _ _ _ W) in Ha. rewrite <- val21. symmetry. apply val2. tauto.
  - apply last_last.
  - intros l a Hl Ha. apply in_app_or in Hl. destruct Hl as [Hl|[<-|[]]]; [left; apply (wf_levels _ _ _ W l a Hl Ha)|].
    apply sources'_N, Ha.
  - intros a [Na|Hc].
    + destruct (wf_reach _ _ _ W a Na) as (r & Hr & B). exists r. split; [exact Hr|]. apply below2; [apply (wf_roots _ _ _ W), Hr|exact B].
    + destruct some_A as (b & Hb). destruct (A_N b Hb) as [Nb _]. destruct (wf_reach _ _ _ W b Nb) as (r & Hr & B). exists r.
      split; [exact Hr|]. eapply below_step; [apply below2; [apply (wf_roots _ _ _ W), Hr|exact B]|].
      rewrite chi2_used by exact Hb. exact Hc.
  - intros a Ha. destruct (in_dec Nat.eq_dec a sources') as [I|I].
    + exists (t_current_level t + 1). split; [apply lev2_open, I|].
      destruct some_A as (b & Hb). destruct (wf_level _ _ _ W b (proj1 (A_N b Hb))) as (l & _ & B). lia.
    + destruct Ha as [Na|Hc]; [|exfalso; apply I, sources'_in; left; exact Hc].
      rewrite lev2_inner by assumption. destruct (wf_level _ _ _ W a Na) as (l & E & B). exists l. split; [exact E|lia].
  - intros a b [Na|Ha] Hb; [|rewrite chi2_new in Hb by exact Ha; destruct Hb].
    assert (Ia : ~ In a sources').
    { rewrite sources'_in. intros [H|[H1 H2]]; [apply (old_not_new a Na H)|]. rewrite chi2_kept in Hb by assumption.
      apply (wf_open _ _ _ W) in H1. destruct H1 as [_ E]. rewrite E in Hb. destruct Hb. }
    rewrite lev2_inner by assumption. destruct (in_dec Nat.eq_dec b sources') as [I|I].
    + rewrite lev2_open by exact I. destruct (wf_level _ _ _ W a Na) as (l & E & B). exists l, (t_current_level t + 1).
      repeat split; [exact E|lia].
    + destruct (in_dec Nat.eq_dec a A) as [IA|IA].
      * exfalso. rewrite chi2_used in Hb by exact IA. apply I, sources'_in. left. exact Hb.
      * rewrite chi2_kept in Hb by assumption. rewrite lev2_inner by (try assumption; apply (wf_child _ _ _ W a b Na Hb)).
        apply (wf_edges _ _ _ W a b Na Hb).
  - intros a [Na|Hc].
    + destruct (wf_tags _ _ _ W a Na) as (own & H1 & H2 & H3). destruct (in_dec Nat.eq_dec a A) as [I|I].
      * destruct (A_N a I) as [_ E]. rewrite E in H3. cbn in H3. rewrite H3 in H1 by lia. rewrite app_nil_r in H1.
        destruct (gr_used _ _ _ _ G a I) as (own' & EG & T1 & T2). exists own'.
        rewrite (keep2 n_expands) by reflexivity. rewrite EG. cbn [n_expands set_expands]. rewrite H1.
        rewrite par2 by exact Na. split; [reflexivity|]. rewrite chi2_used by exact I. rewrite map_val21, val2 by exact Na.
        split; [exact T1|exact T2].
      * exists own. rewrite (keep2 n_expands) by reflexivity.
        rewrite (gr_old _ _ _ _ G) by (try exact I; apply (wf_bound _ _ _ W a Na)).
        rewrite par2, chi2_kept, val2 by assumption. rewrite map_val2 by (intros c; apply (wf_child _ _ _ W a c Na)). auto.
    + exists []. destruct (gr_new _ _ _ _ G a Hc) as (P & C & _ & _ & E & _).
      rewrite (keep2 n_expands) by reflexivity. rewrite par2_new, chi2_new by exact Hc. rewrite app_nil_r, E.
      split; [reflexivity|]. cbn. split; [lia|reflexivity].
  - intros a [Na|Hc].
    + rewrite (keep2 n_past) by reflexivity. rewrite (old_data n_past) by auto. rewrite val2 by exact Na.
      destruct (wf_past _ _ _ W a Na) as (H1 & H2 & r & H3 & H4 & H5). split; [exact H1|]. split; [exact H2|].
      pose proof (wf_roots _ _ _ W r H3). exists r. rewrite val2 by assumption. split; [exact H3|]. split; [apply below2; assumption|exact H5].
    + rewrite (keep2 n_past) by reflexivity. rewrite val21. destruct (gr_new _ _ _ _ G a Hc) as (_ & _ & _ & _ & _ & H1 & H2 & H3 & _).
      split; [exact H1|]. split; [exact H2|]. destruct some_A as (b & Hb). destruct (A_N b Hb) as [Nb _].
      destruct (wf_past _ _ _ W b Nb) as (_ & _ & r & H4 & H5 & H6). pose proof (wf_roots _ _ _ W r H4). exists r.
      rewrite val2 by assumption. split; [exact H4|]. split; [|eauto]. eapply below_step; [apply below2; eassumption|].
      rewrite chi2_used by exact Hb. exact Hc.
  - apply (fl_append_spec tuple_eqb tuple_Z_decides), (wf_tpast _ _ _ W).
Qed.

(** everything tree_add returns *)
Lemma add_ok : exists h2 t2, tree_add h1 t cs cost = Ok (h2, t2) /\ wf h2 t2 (fun a => N a \/ In a cs) /\
  length h2 = length h1 /\
  (forall b, (b < length h)%nat -> ~ N b -> get h2 b = get h b) /\
  t_roots t2 = t_roots t /\ t_size t2 = t_size t + cost /\
  t_past t2 = fl_append tuple_eqb (t_source_values t) (t_past t) /\
  t_current_level t2 = t_current_level t + 1 /\
  t_n_sources t2 = Z.of_nat (length (t_sources t2)) /\
  (forall a, In a (t_sources t2) -> level h2 a = Some (t_current_level t2)) /\
  (forall a, N a \/ In a cs -> ~ In a (t_sources t2) -> exists l, level h2 a = Some l /\ l < t_current_level t2) /\
  (forall a, N a -> value h2 a = value h a) /\
  (forall c, In c cs -> value h2 c = value h1 c) /\
  ((forall a, N a -> n_past (get h2 a) = n_past (get h a)) /\ (forall c, In c cs -> n_past (get h2 c) = n_past (get h1 c))) /\
  Permutation (t_source_values t2 ++ map (value h) A) (t_source_values t ++ map (value h1) cs).
Proof.
  exists h2, t2. split; [apply add_runs|]. split; [apply add_wf|]. split; [apply len2|].
  split.
  { intros b B NB. assert (X : ~ In b sources').
    { intros I. apply sources'_N in I. destruct I as [I|I]; [contradiction|]. apply cs_in in I. lia. }
    unfold h2. rewrite get_set_levels_other by exact X. apply (gr_old _ _ _ _ G b B). intros I. apply NB, A_N, I. }
  split; [reflexivity|]. split; [reflexivity|]. split; [reflexivity|]. split; [reflexivity|]. split; [reflexivity|].
  split; [apply lev2_open|]. split.
  { intros a Ha I. cbn [t_sources t2] in I. destruct Ha as [Na|Hc]; [|exfalso; apply I, sources'_in; left; exact Hc].
    rewrite lev2_inner by assumption. destruct (wf_level _ _ _ W a Na) as (l & E & B). exists l. cbn. split; [exact E|lia]. }
  split; [apply val2|]. split; [intros c _; apply val21|].
  split. { split; [|intros c Hc; apply (keep2 n_past); reflexivity]. intros a Na. rewrite (keep2 n_past) by reflexivity. apply (old_data n_past); auto. }
  cbn [t_source_values t2]. change (node_values h1 sources') with (map (value h1) sources').
  rewrite (Permutation_map (value h1) sources'_perm), map_app.
  rewrite (wf_values _ _ _ W).
  rewrite (Permutation_map (value h) (filter_perm A (t_sources t) (wf_open_nd _ _ _ W) A_nd A_open)), map_app.
  replace (map (value h1) kept) with (map (value h) kept).
  2: { apply map_ext_in. intros a Ha. unfold kept in Ha. apply filter_In in Ha. destruct Ha as [Ha _].
       apply (wf_open _ _ _ W) in Ha. rewrite <- val21. symmetry. apply val2. tauto. }
  fold kept. rewrite <- app_assoc. rewrite (Permutation_app_comm (map (value h1) cs)).
  rewrite (Permutation_app_comm (map (value h) kept) (map (value h) A)). reflexivity.
Qed.
End Add.
