(** What loading guarantees to the search, compute_cant_use, and the initial tree. *)
From Verif Require Import Base BaseLemmas Cost CostSpec CostProofs Utils UtilsSpec UtilsProofs Fractions Load LoadSpec LoadProofs Tree TreeSpec
  Search SearchSpec HeapLemmas CopyProofs TreeInv TreeGrow TreeOps SearchGen.
From Coq Require Import QArith Qcanon.
Open Scope Z_scope.

Record loaded_facts (p : problem) : Prop := {
  lf_nonempty : p_sources p <> [];
  lf_pos : Forall (fun v => 0 < v) (p_sources p);
  lf_sorted : StronglySorted Z.le (p_sources p);
  lf_gcd : 0 < p_gcd p;
  lf_targets : StronglySorted Z.lt (p_targets p);
  lf_total : zsum (p_targets p) = zsum (p_sources p);
  lf_counts : p_target_counts p = count_values (p_targets p);
  lf_min : zmin (p_targets p) = Some (p_min_target p);
  lf_initial : 0 <= p_initial_best_size p
}.

Lemma folded_inner_facts g : folded g -> Forall (fun v => 0 < v) (gleaves g) ->
  0 < gvalue g /\ forall v k, In (v, k) (ginner g) -> 2 <= k /\ (k | v) /\ 0 < v.
Proof.
  induction 1 as [v|w cs L E FC IH]; intros P.
  - cbn in *. inversion P; subst. split; [assumption|]. intros v0 k [].
  - assert (NE : cs <> []) by (destruct cs; [cbn in L; lia|discriminate]).
    rewrite gleaves_node in P by exact NE. rewrite ginner_node by exact NE.
    assert (PC : forall c, In c cs -> Forall (fun v => 0 < v) (gleaves c)).
    { intros c Hc. rewrite Forall_forall in *. intros v Hv. apply P. apply in_flat_map. eauto. }
    assert (W : 0 < w). { destruct cs as [|c cs]; [congruence|]. rewrite <- (E c) by (left; reflexivity). apply IH; [left; reflexivity|]. apply PC. left. reflexivity. }
    cbn [gvalue]. split; [nia|]. intros v k [[= <- <-]|I].
    + split; [lia|]. split; [exists w; reflexivity|nia].
    + apply in_flat_map in I. destruct I as (c & Hc & I). apply (IH c Hc); [apply PC, Hc|exact I].
Qed.
Lemma offset_nonneg leaves off : Forall folded leaves -> Forall (fun v => 0 < v) (flat_map gleaves leaves) ->
  total_divide_cost (flat_map ginner leaves) off -> 0 <= off.
Proof.
  intros FL P (costs & F2 & ->).
  assert (D : Forall (fun d => 2 <= snd d /\ (snd d | fst d) /\ 0 < fst d) (flat_map ginner leaves)).
  { apply Forall_forall. intros [v k] I. cbn [fst snd]. apply in_flat_map in I. destruct I as (g & Hg & I). rewrite Forall_forall in FL.
    apply (folded_inner_facts g (FL g Hg)); [|exact I]. rewrite Forall_forall in *. intros x Hx. apply P, in_flat_map. eauto. }
  induction F2 as [|d c ds costs E F2 IH]; [cbn; lia|]. inversion D; subst. rewrite zsum_cons.
  destruct H1 as (K & DV & VP). pose proof (Z.divide_pos_le _ _ VP DV). destruct (divide_cost_pos (fst d) (snd d)) as (r & E' & R1); try lia; try assumption.
  rewrite E in E'. injection E' as <-. specialize (IH H2). lia.
Qed.

Lemma fold_gcd_pos l : forall x, 0 < x -> 0 < fold_left Z.gcd l x.
Proof.
  induction l as [|y l IH]; intros x H; [exact H|]. cbn [fold_left]. apply IH.
  pose proof (Z.gcd_nonneg x y). assert (Z.gcd x y <> 0) by (intros E; apply Z.gcd_eq_0 in E; lia). lia.
Qed.

Lemma loaded_ok p : loaded p -> loaded_facts p.
Proof.
  intros (ss & ts & Ps & Pt & H).
  destruct (load_grouped ss ts p Ps Pt H) as (_ & TS & TT & FF & PG & TD).
  destruct (load_reduced ss ts p Ps Pt H) as (_ & _ & PI & _).
  destruct ss as [|s0 ss]; [discriminate|]. destruct ts as [|t0 ts]; [discriminate|].
  destruct (load_values_spec (s0 :: ss) (t0 :: ts) Ps Pt) as (u & S & T & R & PS & PT & Sum & H1 & H2 & H3);
    [discriminate|discriminate|].
  assert (NS : S <> []) by (intros E; rewrite (H1 E) in H; discriminate).
  assert (Big : ~ too_small T) by (intros E; rewrite (H2 NS E) in H; discriminate).
  destruct (H3 NS Big) as (p' & E & E1 & E2 & E3 & EG & ET & (b & _ & B0 & EB) & EM & EC & EK & _). rewrite H in E. injection E as <-.
  destruct R as (es & et & common & fs & ft & _ & _ & _ & _ & _ & _ & _ & _ & SS & _).
  constructor; rewrite ?E2; try assumption.
  - destruct S as [|z S]; [congruence|]. cbn [compute_gcd app] in EK. injection EK as <-. inversion PS; subst. apply fold_gcd_pos. assumption.
  - rewrite <- E2. exact TT.
  - rewrite EB. assert (0 <= p_size_offset p); [|lia]. apply (offset_nonneg (p_leaves p)); [exact FF| |exact TD].
    rewrite Forall_forall in *. intros v Hv. apply PI, (Permutation_in _ PG), Hv.
Qed.

(** ** compute_cant_use *)
Lemma cnt_occurrences v l : cnt Z.eqb v l = occurrences v l.
Proof.
  unfold cnt, occurrences. induction l as [|x l IH]; [reflexivity|]. cbn [filter count_occ].
  destruct (Z.eq_dec x v) as [->|D].
  - rewrite Z.eqb_refl. cbn [length]. rewrite IH. reflexivity.
  - destruct (Z.eqb_spec v x); [congruence|]. exact IH.
Qed.
Lemma dict_get_map v f ks : dict_get v (map (fun y : Z => (y, f y)) ks) = if existsb (Z.eqb v) ks then Some (f v) else None :> option Z.
Proof.
  induction ks as [|k ks IH]; [reflexivity|]. cbn [map dict_get existsb]. rewrite (Z.eqb_sym v k). destruct (Z.eqb_spec k v) as [->|D]; [reflexivity|].
  cbn [orb]. exact IH.
Qed.

Lemma existsb_nub v l : existsb (Z.eqb v) (nub Z.eqb l) = true <-> In v l.
Proof. rewrite (existsb_eqb Z.eqb Z_eq_decides). apply (nub_in Z.eqb Z_eq_decides). Qed.

Lemma cant_use_in p ss v : p_target_counts p = count_values (p_targets p) ->
  In v (compute_cant_use (p_target_counts p) ss) <->
  In v ss /\ In v (p_targets p) /\ (occurrences v ss <= occurrences v (p_targets p))%nat.
Proof.
  intros EC. unfold compute_cant_use. rewrite filter_In. rewrite EC. unfold count_values.
  rewrite !(counter_closed Z.eqb Z_eq_decides), map_map. cbn [fst snd].
  rewrite (counter_get_map Z.eqb Z_eq_decides), dict_get_map.
  split.
  - intros [I H]. split; [exact I|].
    destruct (existsb (Z.eqb v) (nub Z.eqb ss)) eqn:E1; [|discriminate].
    destruct (existsb (Z.eqb v) (nub Z.eqb (p_targets p))) eqn:E2; [|discriminate].
    apply existsb_nub in E2. rewrite !cnt_occurrences in H. apply andb_true_iff in H. destruct H as [_ H]. split; [exact E2|lia].
  - intros (I & I2 & L). split; [exact I|]. apply existsb_nub in I as E1. apply existsb_nub in I2 as E2. rewrite E1, E2, !cnt_occurrences.
    unfold occurrences in *. apply (count_occ_In Z.eq_dec) in I, I2.
    rewrite !andb_true_iff, !negb_true_iff, Nat.eqb_neq, Z.eqb_neq. lia.
Qed.
Lemma not_cant_use p ss v : p_target_counts p = count_values (p_targets p) -> In v ss ->
  ~ In v (compute_cant_use (p_target_counts p) ss) -> (occurrences v (p_targets p) < occurrences v ss)%nat.
Proof.
  intros EC I N. rewrite (cant_use_in p ss v EC) in N.
  destruct (in_dec Z.eq_dec v (p_targets p)) as [I2|I2].
  - destruct (Nat.lt_ge_cases (occurrences v (p_targets p)) (occurrences v ss)) as [L|L]; [exact L|]. exfalso. apply N. auto.
  - unfold occurrences in *. apply (count_occ_not_In Z.eq_dec) in I2. apply (count_occ_In Z.eq_dec) in I. lia.
Qed.

(** ** the initial tree *)
Lemma source_nodes_length vs : length (source_nodes vs) = length vs.
Proof. unfold source_nodes, enumerate. rewrite map_length, combine_length, seq_length. lia. Qed.
Lemma source_nodes_get vs a : (a < length vs)%nat -> get (source_nodes vs) a =
  MkNode (nth a vs 0) a None (fl_append Z.eqb (nth a vs 0) fl_new) [] [] [] 0.
Proof.
  intros L. unfold get, source_nodes, enumerate.
  set (f := fun e : nat * Z => MkNode (snd e) (fst e) None (fl_append Z.eqb (snd e) fl_new) [] [] [] 0).
  rewrite (nth_indep _ dead_node (f (O, 0))) by (rewrite map_length, combine_length, seq_length; lia).
  rewrite map_nth, combine_nth by apply seq_length. rewrite seq_nth by exact L. reflexivity.
Qed.

Section Initial.
Variable p : problem.
Hypothesis F : loaded_facts p.
Let vs := p_sources p.
Let h0 := fst (initial_tree p).
Let t0 := snd (initial_tree p).

Lemma initial_length : length h0 = length vs.
Proof. unfold h0, initial_tree, tree_new. cbn [fst]. rewrite set_levels_length. apply source_nodes_length. Qed.
Lemma initial_get a : (a < length vs)%nat -> get h0 a =
  MkNode (nth a vs 0) a (Some 0) (fl_append Z.eqb (nth a vs 0) fl_new) [] [] [] 0.
Proof.
  intros L. unfold h0, initial_tree, tree_new. cbn [fst].
  rewrite get_set_levels_in; [|rewrite source_nodes_length; apply in_seq; fold vs; lia|rewrite source_nodes_length; exact L].
  rewrite source_nodes_get by exact L. reflexivity.
Qed.
Lemma initial_roots : t_roots t0 = seq 0 (length vs).
Proof. unfold t0, initial_tree, tree_new. cbn [snd t_roots]. rewrite source_nodes_length. reflexivity. Qed.
Lemma map_nth_seq (l : list Z) : map (fun a => nth a l 0) (seq 0 (length l)) = l.
Proof.
  symmetry. apply nth_ext with 0 0; [rewrite map_length, seq_length; reflexivity|]. intros n Hn.
  rewrite (nth_indep (map _ _) 0 (nth O l 0)) by (rewrite map_length, seq_length; exact Hn).
  rewrite (map_nth (fun i => nth i l 0)). rewrite seq_nth by exact Hn. reflexivity.
Qed.
Lemma initial_values : t_source_values t0 = vs.
Proof.
  unfold t0, initial_tree, tree_new. cbn [snd t_source_values]. rewrite source_nodes_length. unfold node_values.
  fold vs. transitivity (map (fun a => nth a vs 0) (seq 0 (length vs))); [|apply map_nth_seq].
  apply map_ext_in. intros a Ha. apply in_seq in Ha. fold vs. rewrite source_nodes_get by lia. reflexivity.
Qed.

Lemma initial_wf : wf h0 t0 (fun a => (a < length vs)%nat).
Proof.
  assert (G : forall a, (a < length vs)%nat -> children h0 a = [] /\ parents h0 a = [] /\ value h0 a = nth a vs 0 /\ level h0 a = Some 0).
  { intros a L. unfold children, parents, value, level. rewrite initial_get by exact L. auto. }
  assert (RI : forall a, In a (t_roots t0) <-> (a < length vs)%nat) by (intros a; rewrite initial_roots, in_seq; lia).
  assert (ES : t_sources t0 = t_roots t0) by reflexivity.
  constructor.
  - intros a L. rewrite initial_length. exact L.
  - intros r Hr. apply RI, Hr.
  - rewrite initial_roots. apply seq_NoDup.
  - intros a b L I. rewrite (proj1 (G a L)) in I. destruct I.
  - intros a b L I. destruct (G a L) as (_ & E & _). rewrite E in I. destruct I.
  - intros a b La Lb. destruct (G a La) as (E & _). destruct (G b Lb) as (_ & E2 & _). rewrite E, E2. tauto.
  - intros a L. destruct (G a L) as (E & E2 & _). rewrite E, E2. split; constructor.
  - intros a L. destruct (G a L) as (_ & E & _). rewrite E, RI. tauto.
  - intros a L. left. apply (G a L).
  - intros a L. destruct (G a L) as (_ & _ & E & _). rewrite E. pose proof (lf_pos p F) as P. rewrite Forall_forall in P. apply P. apply nth_In. exact L.
  - intros a b La Lb E. rewrite !initial_get in E by assumption. exact E.
  - intros a L. rewrite initial_get by exact L. cbn [n_id]. rewrite initial_length. exact L.
  - intros a. rewrite ES, RI. split; [|tauto]. intros L. split; [exact L|apply (G a L)].
  - rewrite ES, initial_roots. apply seq_NoDup.
  - rewrite initial_values, ES, initial_roots. symmetry. transitivity (map (fun a => nth a vs 0) (seq 0 (length vs))); [|apply map_nth_seq].
    apply map_ext_in. intros a Ha. apply in_seq in Ha. apply (G a). lia.
  - rewrite initial_values. apply (lf_sorted p F).
  - reflexivity.
  - intros l a [<-|[]] Ha. apply RI, Ha.
  - intros a L. exists a. split; [apply RI, L|constructor].
  - intros a L. exists 0. split; [apply (G a L)|]. cbn. lia.
  - intros a b L I. rewrite (proj1 (G a L)) in I. destruct I.
  - intros a L. exists []. destruct (G a L) as (E & E2 & _). rewrite E, E2. rewrite initial_get by exact L. cbn. split; [reflexivity|]. split; [lia|reflexivity].
  - intros a L. destruct (G a L) as (_ & _ & E & _).
    assert (FI : fl_items (n_past (get h0 a)) = [nth a vs 0] /\ fl_inv (n_past (get h0 a))).
    { rewrite initial_get by exact L. cbn [n_past]. split; [reflexivity|]. apply (fl_append_spec Z.eqb Z_eq_decides). apply fl_new_inv. }
    destruct FI as [FI FV]. split; [exact FV|]. rewrite FI, E. split; [left; reflexivity|].
    exists a. split; [apply RI, L|]. split; [constructor|]. rewrite E. left. reflexivity.
  - apply fl_new_inv.
Qed.
End Initial.
