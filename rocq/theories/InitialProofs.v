(** What loading prepares for the search, and the network behind the initial bound. *)
From Verif Require Import Base BaseLemmas Cost CostSpec CostProofs Utils UtilsSpec UtilsProofs Fractions Load LoadSpec LoadProofs Tree TreeSpec
  Search SearchSpec HeapLemmas CopyProofs TreeInv TreeGrow TreeOps SearchGen SearchInit SearchInv SearchProofs InitialSpec.
From Coq Require Import QArith Qcanon.
Open Scope Z_scope.

(** ** what is prepared *)
Lemma upper_loop_peeled ts : forall v r b, upper_loop ts v r = Ok b -> exists c, peeled v ts c /\ b = r + c.
Proof.
  induction ts as [|t ts IH]; intros v r b; cbn [upper_loop].
  - intros [= <-]. exists 0. split; [constructor|lia].
  - destruct (extract_cost v t) as [c|] eqn:E; cbn [bind]; [|discriminate]. intros H.
    destruct (IH _ _ _ H) as (d & P & ->). exists (c + d). split; [econstructor; eassumption|lia].
Qed.
Lemma fold_gcd_divides l : forall x d, (d | fold_left Z.gcd l x) <-> (d | x) /\ forall v, In v l -> (d | v).
Proof.
  induction l as [|y l IH]; intros x d; cbn [fold_left].
  - split; [intros H; split; [exact H|intros v []]|tauto].
  - rewrite IH. split.
    + intros [H1 H2]. assert (H3 := Z.divide_trans _ _ _ H1 (Z.gcd_divide_l x y)). assert (H4 := Z.divide_trans _ _ _ H1 (Z.gcd_divide_r x y)).
      split; [exact H3|]. intros v [<-|I]; auto.
    + intros [H1 H2]. split; [apply Z.gcd_greatest; [exact H1|apply H2; left; reflexivity]|]. intros v I. apply H2. right. exact I.
Qed.
Lemma fold_min_spec l : forall x, In (fold_left Z.min l x) (x :: l) /\ forall v, In v (x :: l) -> fold_left Z.min l x <= v.
Proof.
  induction l as [|y l IH]; intros x; cbn [fold_left].
  - split; [left; reflexivity|]. intros v [<-|[]]. lia.
  - destruct (IH (Z.min x y)) as [[E|I] H].
    + split; [destruct (Z.min_spec x y) as [[_ M]|[_ M]]; rewrite <- E, M; [left|right; left]; reflexivity|].
      intros v [<-|[<-|J]]; [|..]; [specialize (H _ (or_introl eq_refl)); lia..|apply H; right; exact J].
    + split; [right; right; exact I|]. intros v [<-|[<-|J]]; [specialize (H _ (or_introl eq_refl)); lia..|apply H; right; exact J].
Qed.

Lemma loaded_prepared p : loaded p -> prepared p.
Proof.
  intros L. pose proof (loaded_ok p L) as F. destruct L as (ss & ts & Ps & Pt & H).
  destruct ss as [|s0 ss]; [discriminate|]. destruct ts as [|t0 ts]; [discriminate|].
  destruct (load_values_spec (s0 :: ss) (t0 :: ts) Ps Pt) as (u & S & T & R & PS & PT & Sum & H1 & H2 & H3);
    [discriminate|discriminate|].
  assert (NS : S <> []) by (intros E; rewrite (H1 E) in H; discriminate).
  assert (Big : ~ too_small T) by (intros E; rewrite (H2 NS E) in H; discriminate).
  destruct (H3 NS Big) as (p' & E & E1 & E2 & E3 & EG & ET & (b & UB & B0 & EB) & EM & EC & EK & _). rewrite H in E. injection E as <-.
  assert (EN : p_target_counts p = map (fun v => (v, Z.of_nat (occurrences v (p_targets p)))) (nub Z.eqb (p_targets p))).
  { rewrite EC. unfold count_values. rewrite (counter_closed Z.eqb Z_eq_decides), map_map. apply map_ext. intros v. cbn [fst snd].
    rewrite cnt_occurrences. reflexivity. }
  constructor.
  - unfold zmin in EM. destruct (p_targets p) as [|x l]; [discriminate|]. injection EM as <-. apply fold_min_spec.
  - intros v n. rewrite EN, in_map_iff. split.
    + intros (w & [= <- <-] & I). split; [|reflexivity]. rewrite (nub_in Z.eqb Z_eq_decides) in I. exact I.
    + intros [I ->]. exists v. split; [reflexivity|]. rewrite (nub_in Z.eqb Z_eq_decides). exact I.
  - rewrite EN, map_map. cbn [fst]. rewrite map_id. apply (nub_nodup _ Z_eq_decides).
  - apply (lf_gcd p F).
  - intros d. rewrite E2. destruct S as [|z S]; [congruence|]. cbn [compute_gcd app] in EK. injection EK as <-.
    rewrite fold_gcd_divides. split.
    + intros [D1 D2] v [[<-|I]|I]; [exact D1|..]; apply D2, in_or_app; auto.
    + intros D. split; [apply D; left; left; reflexivity|]. intros v I. apply in_app_or in I. apply D. destruct I as [I|I]; [left; right|right]; exact I.
  - unfold best_size_upper_bond in UB. destruct (upper_loop_peeled _ _ _ _ UB) as (r & P & ->). exists r. rewrite E2. split; [exact P|]. rewrite EB. reflexivity.
Qed.

(** ** the network behind the bound *)
Lemma leads_trans h t h1 t1 h2 t2 : leads h t h1 t1 -> leads h1 t1 h2 t2 -> leads h t h2 t2.
Proof. intros L1. induction 1 as [|h3 t3 o cost h4 t4 L IH S P V E]; [exact L1|]. econstructor; eauto. Qed.

Lemma sorted_peel l x y w ts : StronglySorted Z.lt (l ++ x :: y :: ts) -> y <= w -> StronglySorted Z.le (l ++ [x; w]).
Proof.
  intros S L. induction l as [|a l IH]; cbn [app] in *.
  - inversion S as [|? ? S1 F]; subst. inversion F; subst. repeat constructor. lia.
  - inversion S as [|? ? S1 F]; subst. constructor; [apply IH, S1|]. rewrite Forall_forall in F |- *.
    intros v I. apply in_app_or in I. destruct I as [I|[<-|[<-|[]]]].
    + assert (a < v); [|lia]. apply F, in_or_app. left. exact I.
    + assert (a < x); [|lia]. apply F, in_or_app. right. left. reflexivity.
    + assert (a < y); [|lia]. apply F, in_or_app. right. right. left. reflexivity.
Qed.

Lemma taken_one h t N i v : wf h t N -> (i < length (t_sources t))%nat -> nth i (t_source_values t) 0 = v ->
  map (value h) [nth i (t_sources t) O] = [v].
Proof.
  intros W Hi E. cbn [map]. rewrite <- E, (wf_values _ _ _ W).
  rewrite (nth_indep _ 0 (value h O)) by (rewrite map_length; exact Hi). rewrite map_nth. reflexivity.
Qed.

Lemma peel_attained ts : forall h t N don r, wf h t N -> ts <> [] -> Forall (fun v => 0 < v) ts ->
  t_source_values t = don ++ [zsum ts] -> StronglySorted Z.lt (don ++ ts) -> peeled (zsum ts) ts r ->
  exists h' t' N', leads h t h' t' /\ wf h' t' N' /\ t_source_values t' = don ++ ts /\ t_size t' = t_size t + r.
Proof.
  induction ts as [|x ts IH]; intros h t N don r W NE P V S PE; [congruence|].
  inversion PE as [|? ? ? c r' EC PE']; subst. inversion P as [|? ? Px Pts]; subst.
  destruct ts as [|y ts].
  - inversion PE'; subst. exists h, t, N. split; [constructor|]. split; [exact W|]. rewrite zsum_cons, zsum_nil, Z.add_0_r in *. split; [exact V|].
    unfold extract_cost in EC. destruct (x <=? 2); [discriminate|]. rewrite Z.eqb_refl, orb_true_r in EC. injection EC as <-. lia.
  - set (v := zsum (x :: y :: ts)) in *. set (i := length don). set (o := OExtract i x).
    assert (EV : v = x + zsum (y :: ts)) by apply zsum_cons.
    assert (GE : y <= zsum (y :: ts)) by (rewrite zsum_cons; inversion Pts; subst; pose proof (zsum_nonneg ts); intuition lia).
    assert (XY : x < y).
    { clear -S. induction don as [|a l IH]; cbn [app] in S; inversion S as [|? ? S1 F]; subst; [inversion F; assumption|auto]. }
    assert (Hi : (i < length (t_sources t))%nat).
    { assert (E : length (t_source_values t) = length (t_sources t)) by (rewrite (wf_values _ _ _ W); apply map_length).
      rewrite <- E, V, app_length. unfold i. cbn. lia. }
    assert (TK : taken h t o = [v]).
    { unfold taken, o, op_nodes. apply (taken_one h t N i v W Hi). rewrite V. unfold i. apply nth_middle. }
    assert (SE : sensible h t o).
    { unfold sensible. rewrite TK, zsum_cons, zsum_nil, Z.add_0_r. split; [exact Hi|]. split; lia. }
    assert (PR : priced h t o c).
    { unfold priced. rewrite TK, zsum_cons, zsum_nil, Z.add_0_r. exact EC. }
    destruct (apply_op_ok h t N o c W SE) as (h1 & t1 & N1 & E1 & A).
    assert (V1 : t_source_values t1 = (don ++ [x]) ++ [zsum (y :: ts)]).
    { rewrite <- app_assoc. cbn [app]. apply sorted_z_unique.
      - apply (wf_sorted _ _ _ (ap_wf _ _ _ _ _ _ _ _ A)).
      - apply (sorted_peel don x y (zsum (y :: ts)) ts S GE).
      - apply (Permutation_app_inv_r [v]). pose proof (ap_values _ _ _ _ _ _ _ _ A) as PV. unfold given in PV. rewrite TK in PV.
        cbn [zsum fold_right o] in PV. rewrite Z.add_0_r in PV. rewrite PV, V. fold (zsum (y :: ts)).
        replace (v - x) with (zsum (y :: ts)) by lia. rewrite <- !app_assoc. apply Permutation_app_head.
        cbn [app]. apply (Permutation_middle [x; zsum (y :: ts)] [] v). }
    replace (v - x) with (zsum (y :: ts)) in PE' by lia.
    destruct (IH h1 t1 N1 (don ++ [x]) r' (ap_wf _ _ _ _ _ _ _ _ A)) as (h2 & t2 & N2 & L2 & W2 & V2 & S2);
      [discriminate|exact Pts|exact V1|rewrite <- app_assoc; exact S|exact PE'|].
    exists h2, t2, N2. split; [|split; [exact W2|split; [rewrite V2, <- app_assoc; reflexivity|]]].
    + apply (leads_trans _ _ h1 t1); [|exact L2]. apply (leads_op _ _ h t o c); try assumption; [constructor|]. rewrite TK. constructor; [|constructor].
      inversion Pts; subst. lia.
    + rewrite S2, (ap_size _ _ _ _ _ _ _ _ A). lia.
Qed.

Lemma c57_initial_bound_is_attained_lemma : forall p, loaded p -> exists h t,
  leads (fst (initial_tree p)) (snd (initial_tree p)) h t /\
  t_source_values t = p_targets p /\ t_size t + p_size_offset p = p_initial_best_size p.
Proof.
  intros p L. pose proof (loaded_ok p L) as F. destruct (loaded_prepared p L) as [_ _ _ _ _ (r & PE & EB)].
  pose proof (initial_wf p F) as W. pose proof (initial_values p) as V0.
  rewrite <- (lf_total p F) in PE.
  assert (NT : p_targets p <> []). { pose proof (lf_min p F) as M. unfold zmin in M. destruct (p_targets p); congruence. }
  assert (PT : Forall (fun v => 0 < v) (p_targets p)).
  { destruct L as (ss & ts & Ps & Pt & H). destruct (load_grouped ss ts p Ps Pt H) as (ET & _ & _ & FF & PG & _).
    destruct (load_reduced ss ts p Ps Pt H) as (_ & _ & PI & _). rewrite ET. apply Forall_forall. intros v I. apply in_map_iff in I.
    destruct I as (g & <- & Ig). rewrite Forall_forall in FF. apply (folded_inner_facts g (FF g Ig)). rewrite Forall_forall in *.
    intros w Iw. apply PI, (Permutation_in _ PG), in_flat_map. eauto. }
  set (h0 := fst (initial_tree p)) in *. set (t0 := snd (initial_tree p)) in *.
  assert (X : exists h1 t1 N1, leads h0 t0 h1 t1 /\ wf h1 t1 N1 /\ t_source_values t1 = [zsum (p_targets p)] /\
    t_size t1 = merge_cost (Z.of_nat (length (p_sources p))) 1).
  { rewrite (lf_total p F). destruct (Nat.le_gt_cases (length (p_sources p)) 1) as [LE|GT].
    - exists h0, t0, (fun a => (a < length (p_sources p))%nat). split; [constructor|]. split; [exact W|]. rewrite V0.
      pose proof (lf_nonempty p F). destruct (p_sources p) as [|x [|y l]] eqn:ES; cbn [length] in LE; [congruence| |lia].
      rewrite zsum_cons, zsum_nil, Z.add_0_r. split; [reflexivity|]. unfold t0. reflexivity.
    - set (n := length (p_sources p)) in *. set (o := OMerge (seq 0 n)). set (c := merge_cost (Z.of_nat n) 1).
      assert (EL : length (t_sources t0) = n).
      { change (t_sources t0) with (t_roots t0). unfold t0. rewrite (initial_roots p). apply seq_length. }
      assert (TK : taken h0 t0 o = p_sources p).
      { unfold taken, o, op_nodes. rewrite <- V0, (wf_values _ _ _ W). f_equal. rewrite <- EL. symmetry.
        apply nth_ext with O O; [rewrite map_length, seq_length; reflexivity|]. intros k Hk.
        rewrite (nth_indep (map _ _) O (nth O (t_sources t0) O)) by (rewrite map_length, seq_length; exact Hk).
        rewrite (map_nth (fun i => nth i (t_sources t0) O)). rewrite seq_nth by exact Hk. reflexivity. }
      assert (SE : sensible h0 t0 o).
      { unfold sensible, o. rewrite seq_length, EL. split; [lia|]. split; [apply seq_NoDup|]. intros k I. apply in_seq in I. lia. }
      assert (PR : priced h0 t0 o c). { unfold priced, o. rewrite seq_length. reflexivity. }
      destruct (apply_op_ok h0 t0 _ o c W SE) as (h1 & t1 & N1 & E1 & A). exists h1, t1, N1.
      split; [|split; [apply (ap_wf _ _ _ _ _ _ _ _ A)|split]].
      + apply (leads_op _ _ h0 t0 o c); try assumption; [constructor|]. rewrite TK. apply (lf_pos p F).
      + pose proof (ap_values _ _ _ _ _ _ _ _ A) as PV. unfold given in PV. rewrite TK in PV. cbn [o] in PV. rewrite V0 in PV.
        rewrite (Permutation_app_comm (p_sources p)) in PV. apply Permutation_app_inv_r in PV. symmetry in PV.
        apply Permutation_length_1_inv in PV. exact PV.
      + rewrite (ap_size _ _ _ _ _ _ _ _ A). reflexivity. }
  destruct X as (h1 & t1 & N1 & L1 & W1 & V1 & S1).
  destruct (peel_attained (p_targets p) h1 t1 N1 [] r W1 NT PT V1 (lf_targets p F) PE) as (h2 & t2 & N2 & L2 & W2 & V2 & S2).
  exists h2, t2. split; [apply (leads_trans _ _ _ _ _ _ L1 L2)|]. split; [exact V2|]. rewrite S2, S1, EB. lia.
Qed.
