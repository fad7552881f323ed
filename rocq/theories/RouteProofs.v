(** A search that runs to its end has followed every route that respects its rules
    (C35, C52). *)
From Verif Require Import Base BaseLemmas Cost CostSpec CostProofs Utils UtilsSpec UtilsProofs Fractions Load LoadSpec LoadProofs Tree TreeSpec
  Search SearchSpec HeapLemmas CopyProofs TreeInv TreeGrow TreeOps SearchGen SearchInit SearchInv SearchProofs CompleteSpec CompleteProofs RouteSpec.
From Coq Require Import QArith Qcanon.
Open Scope Z_scope.

(** what an operation gives is none of what it takes *)
Lemma given_fresh h t N o v : wf h t N -> sensible h t o -> In v (given h t o) -> ~ In v (taken h t o).
Proof.
  intros W S G T. assert (ONE : (match o with OMerge _ => False | _ => True end) -> v = zsum (taken h t o) /\ 0 < v).
  { intros K. split; [|apply (taken_pos h t N o v W S T)]. rewrite (one_taken h t o K) in T. destruct T as [<-|[]]. rewrite (one_taken h t o K) at 1. cbn. lia. }
  unfold given in G. unfold sensible in S. destruct o as [i c|i d|i c|is].
  - destruct (ONE Logic.I) as [EV PV]. rewrite <- EV in S, G. destruct S as (_ & S1 & S2). destruct G as [G|[G|[]]]; lia.
  - destruct (ONE Logic.I) as [EV PV]. rewrite <- EV in S, G. destruct S as (_ & S1 & S2). apply repeat_spec in G.
    assert (v / d < v) by (apply Z.div_lt; lia). lia.
  - destruct (ONE Logic.I) as [EV PV]. rewrite <- EV in S, G. destruct S as (_ & S1 & S2).
    assert (0 < c / 3) by (cbn in S1; destruct S1 as [<-|[<-|[<-|[<-|[<-|[<-|[]]]]]]]; reflexivity).
    destruct G as [G|[G|[G|[]]]]; lia.
  - clear ONE. destruct G as [G|[]]. destruct S as (S1 & S2 & S3).
    assert (P : forall x, In x (taken h t (OMerge is)) -> 0 < x).
    { intros x Hx. apply (taken_pos h t N (OMerge is) x W); [split; auto|exact Hx]. }
    assert (LT : (2 <= length (taken h t (OMerge is)))%nat) by (unfold taken; rewrite map_length; cbn [op_nodes]; rewrite map_length; exact S1).
    destruct (in_split _ _ T) as (l1 & l2 & E). rewrite E in *. rewrite zsum_app, zsum_cons in G. rewrite app_length in LT. cbn [length] in LT.
    assert (NN : forall l, (forall x, In x l -> 0 < x) -> 0 <= zsum l /\ (l <> [] -> 0 < zsum l)).
    { induction l as [|y l IH]; intros H; [cbn; split; [lia|congruence]|]. rewrite zsum_cons. pose proof (H y (or_introl eq_refl)).
      destruct (IH (fun x Hx => H x (or_intror Hx))). split; [lia|intros _; lia]. }
    destruct (NN l1) as [A1 A2]; [intros x Hx; apply P, in_or_app; left; exact Hx|].
    destruct (NN l2) as [B1 B2]; [intros x Hx; apply P, in_or_app; right; right; exact Hx|].
    destruct l1 as [|x l1]; [destruct l2 as [|y l2]; [cbn in LT; lia|]; specialize (B2 ltac:(discriminate)); lia|specialize (A2 ltac:(discriminate)); lia].
Qed.

Lemma priced_unique h t o c c' : priced h t o c -> priced h t o c' -> c = c'.
Proof. unfold priced. destruct o; intros E E'; congruence. Qed.

Lemma map_nth_all (l : list nat) : map (fun i => nth i l O) (seq 0 (length l)) = l.
Proof.
  induction l as [|x l IH]; [reflexivity|]. cbn [length seq map nth]. f_equal. rewrite <- seq_shift, map_map. exact IH.
Qed.
(** an operation on flows, done on a tree with these flows *)
Lemma place h t N o rest : wf h t N -> allowed o -> Permutation (t_source_values t) (uses o ++ rest) ->
  exists o', offered h t o' /\ taken h t o' = uses o /\ given h t o' = makes o /\ (forall cost, costs o cost -> priced h t o' cost) /\
    ((exists vs, o = FMerge vs) <-> exists is, o' = OMerge is).
Proof.
  intros W A P. rewrite (wf_values _ _ _ W) in P.
  assert (ONE : forall v, uses o = [v] -> exists i, (i < length (t_sources t))%nat /\ value h (nth i (t_sources t) O) = v).
  { intros v E. rewrite E in P. assert (I : In v (map (value h) (t_sources t))) by (apply (Permutation_in _ (Permutation_sym P)); left; reflexivity).
    apply in_map_iff in I. destruct I as (a & Ea & Ha). apply (In_nth _ _ O) in Ha. destruct Ha as (i & Hi & <-). eauto. }
  destruct o as [v c|v d|v c|vs]; cbn [uses makes allowed costs] in *.
  - destruct (ONE v eq_refl) as (i & Hi & Ev). exists (OExtract i c). unfold offered, sensible, given, priced, taken. cbn [op_nodes map]. rewrite Ev.
    cbn [zsum fold_right]. rewrite !Z.add_0_r. repeat split; auto; try lia; intros (x & E); discriminate.
  - destruct (ONE v eq_refl) as (i & Hi & Ev). exists (ODivide i d). unfold offered, sensible, given, priced, taken. cbn [op_nodes map]. rewrite Ev.
    cbn [zsum fold_right]. rewrite !Z.add_0_r. repeat split; auto; try tauto; intros (x & E); discriminate.
  - destruct (ONE v eq_refl) as (i & Hi & Ev). exists (OSplit i c). unfold offered, sensible, given, priced, taken. cbn [op_nodes map]. rewrite Ev.
    cbn [zsum fold_right]. rewrite !Z.add_0_r. destruct A as (A1 & A2 & A3). repeat split; auto; try tauto; intros (x & E); discriminate.
  - set (n := length (t_sources t)) in *. set (f := fun i => value h (nth i (t_sources t) O)).
    assert (EM : map (value h) (t_sources t) = map f (seq 0 n)).
    { unfold f. rewrite <- (map_map (fun i => nth i (t_sources t) O) (value h)). f_equal. symmetry. apply map_nth_all. }
    rewrite EM in P. symmetry in P. apply Permutation_map_inv in P. destruct P as (l & El & Pl).
    symmetry in El. apply map_eq_app in El. destruct El as (is & r & -> & E1 & E2).
    assert (ND : NoDup (is ++ r)) by (apply (Permutation_NoDup Pl), seq_NoDup).
    assert (TK : taken h t (OMerge is) = vs) by (unfold taken; cbn [op_nodes]; rewrite map_map; exact E1).
    assert (LN : length vs = length is) by (rewrite <- E1; apply map_length).
    exists (OMerge is). unfold offered, sensible, given, priced. rewrite TK. destruct A as [A1 A2]. rewrite LN in *.
    repeat split; auto; try (intros; eexists; reflexivity).
    + clear - ND. induction is as [|i is IH]; [constructor|]. inversion ND; subst. constructor; [|apply IH; assumption]. intros I. apply H1, in_or_app. left. exact I.
    + intros i Hi. assert (I : In i (seq 0 n)) by (apply (Permutation_in _ (Permutation_sym Pl)), in_or_app; left; exact Hi). apply in_seq in I. lia.
Qed.

(** flows on a route *)
Lemma makes_facts o : allowed o -> (forall v, In v (uses o) -> 0 < v) -> (forall v, In v (makes o) -> 0 < v) /\ length (makes o) <> length (uses o) /\
  forall cost, costs o cost -> 1 <= cost.
Proof.
  intros A P. destruct o as [v c|v d|v c|vs]; cbn [uses makes allowed costs length] in *; try (assert (PV : 0 < v) by (apply P; left; reflexivity)).
  - split; [intros w [<-|[<-|[]]]; lia|]. split; [lia|]. intros cost E. destruct (extract_cost_pos v c) as (r & Er & Lr); try lia. rewrite Er in E. injection E as <-. exact Lr.
  - destruct A as [A1 A2]. pose proof (Z.divide_pos_le _ _ PV A2). split; [|split].
    + intros w Hw. apply repeat_spec in Hw. subst w. apply Z.div_str_pos. lia.
    + rewrite repeat_length. lia.
    + intros cost E. destruct (divide_cost_pos v d) as (r & Er & Lr); try lia; try assumption. rewrite Er in E. injection E as <-. exact Lr.
  - destruct A as (A1 & A2 & _). assert (0 < c / 3) by (cbn in A1; destruct A1 as [<-|[<-|[<-|[<-|[<-|[<-|[]]]]]]]; reflexivity).
    split; [intros w [<-|[<-|[<-|[]]]]; lia|]. split; lia.
  - destruct A as [A1 _]. split; [|split].
    + intros w [<-|[]]. destruct vs as [|x vs]; [cbn in A1; lia|]. rewrite zsum_cons. pose proof (P x (or_introl eq_refl)).
      assert (0 <= zsum vs) by (apply zsum_nonneg, Forall_forall; intros y Hy; apply P; right; exact Hy). lia.
    + lia.
    + intros cost ->. apply c05_merge_cost_positive_lemma. lia.
Qed.
Lemma route_facts p flows last before size : loaded_facts p -> route p flows last before size ->
  (forall v, In v flows -> 0 < v) /\ (flows = p_sources p \/ In (p_sources p) before).
Proof.
  intros F. induction 1 as [|flows last before size o cost flows' rest RT [IP IS] AL CO P P' SO SP MK TP NW].
  - split; [|auto]. pose proof (lf_pos p F) as Po. rewrite Forall_forall in Po. exact Po.
  - split; [|right; destruct IS as [<-|IS]; [left; reflexivity|right; exact IS]].
    intros v Hv. apply (Permutation_in _ P') in Hv. apply in_app_or in Hv. destruct Hv as [Hv|Hv].
    + apply (makes_facts o AL); [|exact Hv]. intros w Hw. apply IP, (Permutation_in _ (Permutation_sym P)), in_or_app. left. exact Hw.
    + apply IP, (Permutation_in _ (Permutation_sym P)), in_or_app. right. exact Hv.
Qed.

Section Route.
Variables (p : problem) (R : oracle) (fuel : nat).
Hypothesis L : loaded p.
Hypothesis NS : o_stop R = None.
Hypothesis OK : fst (solve R fuel p) = Ok tt.
Let s := snd (solve R fuel p).
Let h := s_heap s.

Lemma run_recorded : recorded p s.
Proof.
  pose proof (solve_all p R (loaded_ok p L) NS fuel) as H. unfold s. destruct (solve R fuel p) as [r s0]. cbn [fst snd] in *.
  rewrite OK in H. apply H.
Qed.

(** the targets are in no past *)
Lemma past_not_targets t : In t (explored p (s_log s)) -> ~ In (p_targets p) (fl_items (t_past t)).
Proof.
  intros It. destruct (run_history p R fuel L t It) as (cf & cs & H). fold s in H. clear It. induction H as [|e cf cs He H IH]; [intros []|].
  pose proof (run_event p R fuel L e He) as V. fold s in V. rewrite (eo_past _ _ _ V).
  destruct (run_good p R fuel L _ (run_from p R fuel L e He)) as [N G].
  destruct (fl_append_spec tuple_eqb tuple_Z_decides (t_source_values (ev_from e)) _ (wf_tpast _ _ _ (gd_wf _ _ _ _ G))) as [_ ->].
  unfold ref_append. destruct (existsb _ _); [exact IH|]. intros I. apply in_app_or in I. destruct I as [I|[I|[]]]; [apply IH, I|].
  destruct run_recorded as (_ & RF & _). apply (RF e He I).
Qed.

(** a solution has gone through the flows *)
Definition crossed (c : list Z) : Prop := exists u, In u (explored p (s_log s)) /\ t_source_values u = p_targets p /\ In c (fl_items (t_past u)).
Lemma crossed_dec c : crossed c \/ ~ crossed c.
Proof.
  destruct (existsb (fun u => tuple_eqb (t_source_values u) (p_targets p) && existsb (tuple_eqb c) (fl_items (t_past u))) (explored p (s_log s))) eqn:E.
  - left. apply existsb_exists in E. destruct E as (u & Hu & E). apply andb_true_iff in E. destruct E as [E1 E2]. exists u. split; [exact Hu|].
    split; [apply tuple_Z_decides, E1|]. apply (existsb_eqb tuple_eqb tuple_Z_decides), E2.
  - right. intros (u & Hu & E1 & E2). apply not_true_iff_false in E. apply E, existsb_exists. exists u. split; [exact Hu|]. apply andb_true_iff.
    split; [apply tuple_Z_decides, E1|apply (existsb_eqb tuple_eqb tuple_Z_decides), E2].
Qed.

(** the search has followed the route *)
Record reached (flows last : list Z) (before : list (list Z)) (size : Z) (t : tree Z) : Prop := {
  rc_in : In t (explored p (s_log s));
  rc_flows : t_source_values t = flows;
  rc_size : t_size t = size;
  rc_before : forall c, In c (fl_items (t_past t)) -> In c before;
  rc_last : forall a v, In a (t_sources t) -> In v (fl_items (n_past (get h a))) -> v = value h a \/ In v (p_sources p) \/ In v last
}.

Lemma follow flows last before size : route p flows last before size ->
  (exists t, reached flows last before size t) \/ s_best_size s < size \/ exists c, (c = flows \/ In c before) /\ c <> p_sources p /\ crossed c.
Proof.
  pose proof (loaded_ok p L) as F. destruct (run_inv p R fuel L) as [I _]. fold s in I.
  induction 1 as [|flows last before size o cost flows' rest RT IH AL CO P P' SO SP MK TP NW].
  - left. exists (snd (initial_tree p)). constructor; auto.
    + apply in_or_app. right. left. reflexivity.
    + apply (initial_values p).
    + intros a v Ha Hv. left. pose proof (initial_wf p F) as W. apply (wf_open _ _ _ W) in Ha. destruct Ha as [La _].
      assert (E : extends (fst (initial_tree p)) h) by apply (la_heap _ _ (proj2 (run_inv p R fuel L))).
      assert (EG : get h a = get (fst (initial_tree p)) a) by (apply extends_get; [exact E|apply (wf_bound _ _ _ W), La]).
      unfold value. rewrite EG in *. rewrite (initial_get p) in * by exact La. destruct Hv as [<-|[]]. reflexivity.
  - destruct (route_facts p _ _ _ _ F RT) as [RP RS].
    destruct (makes_facts o AL) as (MF1 & MF2 & MF3). { intros w Hw. apply RP, (Permutation_in _ (Permutation_sym P)), in_or_app. left. exact Hw. }
    assert (NEW : flows' <> p_sources p).
    { intros ->. destruct RS as [->|RS]; [|contradiction]. apply MF2. rewrite P' in P. apply Permutation_length in P. rewrite !app_length in P. lia. }
    destruct IH as [(t & [It Ef Es Eb El])|[LT|(c & Hc & NC & CR)]].
    2: { right. left. specialize (MF3 cost CO). lia. }
    2: { right. right. exists c. split; [|auto]. right. destruct Hc as [->|Hc]; [left; reflexivity|right; exact Hc]. }
    destruct (run_good p R fuel L t It) as [N G]. fold s in G. fold h in G. pose proof (gd_wf _ _ _ _ G) as W.
    rewrite <- Ef in P. destruct (place h t N o rest W AL P) as (o' & OF & TK & GV & PR & MG). specialize (PR cost CO).
    pose proof (priced_pos _ _ _ _ _ W (proj1 OF) PR) as CP.
    destruct (list_eq_dec Z.eq_dec (t_source_values t) (p_targets p)) as [ET|NT].
    { right. left. destruct run_recorded as (RC & _). destruct (RC t It ET) as [B _]. lia. }
    destruct (Z_lt_le_dec (s_best_size s) (size + cost)) as [LT|LE]; [auto|].
    destruct (crossed_dec flows') as [CR|NCR].
    { right. right. exists flows'. split; [auto|]. auto. }
    left.
    assert (PF : Permutation (flows' ++ uses o) (t_source_values t ++ makes o)).
    { rewrite P, P', <- !app_assoc. rewrite (Permutation_app_comm (uses o) (rest ++ makes o)), <- app_assoc.
      rewrite (Permutation_app_comm (makes o) (rest ++ uses o)), <- !app_assoc. apply Permutation_app_head, Permutation_app_comm. }
    assert (PA : passes p h (s_log s) (s_best_size s) t o' (as_large h t o')).
    { constructor; rewrite ?TK, ?GV.
      - rewrite Ef. exact SP.
      - intros v Hv. apply (MK v Hv).
      - exists cost. rewrite Es. auto.
      - intros is ->. destruct MG as [_ MG]. destruct MG as (vs & ->); [eauto|]. apply AL.
      - destruct TP as [TP|TP]; [left; apply MG, TP|right; rewrite Ef; exact TP].
      - intros a v (Ha & Hw) Hv Hp. destruct (MK v Hv) as (_ & M1 & M2). destruct (El a v Ha Hp) as [->|[H|H]]; [|contradiction|contradiction].
        rewrite <- GV in Hv. apply (given_fresh h t N o' _ W (proj1 OF) Hv). exact Hw.
      - intros sim S1 S2. assert (sim = flows') as ->.
        { apply sorted_z_unique; [exact S1|exact SO|]. apply (Permutation_app_inv_r (uses o)). rewrite S2, PF. reflexivity. }
        split; [intros H; apply NW, Eb, H|]. intros u Hu Eu H. apply NCR. exists u. auto. }
    destruct (nothing_missed_lemma p R fuel t o' L NS OK It NT OF PA) as (e & He & Ee & SA). fold s in He. change (s_heap (snd (solve R fuel p))) with h in SA.
    pose proof (run_event p R fuel L e He) as V. fold s in V. fold h in V. rewrite <- Ee in SA.
    pose proof (same_op_given h t o' (ev_op e)) as SG. rewrite <- Ee in SG. specialize (SG SA).
    rewrite <- Ee in TK, GV, PR.
    exists (ev_to e). constructor.
    + apply (run_to p R fuel e He).
    + destruct (run_good p R fuel L _ (run_to p R fuel e He)) as [N' G'].
      apply sorted_z_unique; [apply (wf_sorted _ _ _ (gd_wf _ _ _ _ G'))|exact SO|].
      apply (Permutation_app_inv_r (uses o)). rewrite PF, <- Ee. pose proof (eo_flow _ _ _ V) as EF. rewrite <- SG, GV in EF. rewrite <- EF.
      apply Permutation_app_head. rewrite <- TK. apply (proj1 SA).
    + rewrite (eo_size _ _ _ V), Ee, Es. f_equal. symmetry. apply (priced_unique h (ev_from e) (ev_op e)); [|apply (eo_priced _ _ _ V)].
      apply (same_op_priced h (ev_from e) o' (ev_op e) cost SA PR).
    + intros c Hc. rewrite (eo_past _ _ _ V), Ee in Hc.
      destruct (fl_append_spec tuple_eqb tuple_Z_decides (t_source_values t) _ (wf_tpast _ _ _ W)) as [_ EA]. rewrite EA in Hc.
      unfold ref_append in Hc. destruct (existsb _ _); [right; apply Eb, Hc|]. apply in_app_or in Hc. destruct Hc as [Hc|[<-|[]]]; [right; apply Eb, Hc|].
      left. symmetry. exact Ef.
    + intros a v Ha Hv. pose proof (iv_pasts _ _ _ _ _ _ _ _ I) as PO. rewrite Forall_forall in PO. destruct (PO e He a v Ha Hv) as [H|[H|H]]; [auto|auto|].
      right. right. apply (Permutation_in v (Permutation_sym (proj1 SA))) in H. rewrite TK in H. exact H.
Qed.

Lemma routes_found last before size : route p (p_targets p) last before size -> size <= p_initial_best_size p -> s_solutions s <> [].
Proof.
  intros RT LE. destruct run_recorded as (RC & _ & RB). destruct (follow _ _ _ _ RT) as [(t & RE)|[LT|(c & _ & _ & u & Hu & Eu & _)]].
  - apply (RC t (rc_in _ _ _ _ _ RE) (rc_flows _ _ _ _ _ RE)).
  - intros E. specialize (RB E). lia.
  - apply (RC u Hu Eu).
Qed.
Lemma routes_not_better last before size : route p (p_targets p) last before size ->
  s_best_size s <= size \/ exists c u, In c before /\ c <> p_sources p /\
    In u (explored p (s_log s)) /\ t_source_values u = p_targets p /\ In c (fl_items (t_past u)).
Proof.
  intros RT. destruct run_recorded as (RC & _). destruct (follow _ _ _ _ RT) as [(t & RE)|[LT|(c & Hc & NC & u & Hu & Eu & Iu)]].
  - left. rewrite <- (rc_size _ _ _ _ _ RE). apply (RC t (rc_in _ _ _ _ _ RE) (rc_flows _ _ _ _ _ RE)).
  - left. lia.
  - right. exists c, u. split; [|auto]. destruct Hc as [->|Hc]; [|exact Hc]. exfalso. apply (past_not_targets u Hu Iu).
Qed.
End Route.

(** ** the theorems *)
Lemma nothing_forgotten_lemma p R fuel t : loaded p -> o_stop R = None -> fst (solve R fuel p) = Ok tt ->
  let s := snd (solve R fuel p) in
  In t (explored p (s_log s)) -> t_source_values t = p_targets p ->
  exists u, In u (s_solutions s) /\ t_size u <= t_size t.
Proof.
  intros L NS OK s It Et. destruct (run_recorded p R fuel L NS OK) as (RC & _). destruct (RC t It Et) as [B N]. fold s in B, N.
  destruct (s_solutions s) as [|u l] eqn:E; [congruence|]. exists u. split; [left; reflexivity|].
  pose proof (c23_solutions_have_best_size_lemma p R fuel L) as (F & _). fold s in F. rewrite E in F. inversion F; subst. lia.
Qed.

Lemma routes_found_lemma p R fuel last before size : loaded p -> o_stop R = None -> fst (solve R fuel p) = Ok tt ->
  let s := snd (solve R fuel p) in
  route p (p_targets p) last before size -> size <= p_initial_best_size p -> s_solutions s <> [].
Proof. intros L NS OK. apply (routes_found p R fuel L NS OK). Qed.
Lemma routes_not_better_lemma p R fuel last before size : loaded p -> o_stop R = None -> fst (solve R fuel p) = Ok tt ->
  let s := snd (solve R fuel p) in
  route p (p_targets p) last before size ->
  (exists u, In u (s_solutions s) /\ t_size u <= size) \/ p_initial_best_size p < size \/
  exists c u, In c before /\ c <> p_sources p /\
    In u (explored p (s_log s)) /\ t_source_values u = p_targets p /\ In c (fl_items (t_past u)).
Proof.
  intros L NS OK s RT. destruct (routes_not_better p R fuel L NS OK last before size RT) as [H|H]; [|right; right; exact H].
  destruct (Z_lt_le_dec (p_initial_best_size p) size) as [G|G]; [right; left; exact G|]. left.
  pose proof (routes_found p R fuel L NS OK last before size RT G) as N. fold s in N, H.
  destruct (s_solutions s) as [|u l] eqn:E; [congruence|]. exists u. split; [left; reflexivity|].
  pose proof (c23_solutions_have_best_size_lemma p R fuel L) as (F & _). fold s in F. rewrite E in F. inversion F; subst. lia.
Qed.
