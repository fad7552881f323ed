(** The flow through the splitter trees that replace divides and extractions. *)
From Verif Require Import Base BaseLemmas Cost CostSpec CostProofs Utils Fractions FractionsProofs Load Tree TreeSpec HeapLemmas Expand ExpandSpec BranchProofs LevelProofs BuildProofs
  ExpandProofs ExtractProofs FrameProofs MergeProofs LocalProofs MergeSafe TraverseSafe FlowSpec FlowProofs.
From Coq Require Import QArith Qcanon.
Open Scope Z_scope.

(** the first level of a splitter tree leads nothing back *)
Lemma loops_small d n m l s : 2 <= d -> find_n_m_l d = Ok (n, m, l, s) -> l < under n m 1.
Proof.
  intros Hd E. destruct (find_n_m_l_spec d ltac:(lia)) as (n0 & m0 & l0 & s0 & E0 & Hp & Hl & Hs & Hmin). rewrite E in E0. injection E0 as <- <- <- <-.
  destruct (Z.lt_ge_cases l (under n m 1)) as [L|L]; [exact L|exfalso]. unfold under in L. pose proof (count_splits_closed n m) as Hc. rewrite <- Hs in Hc.
  destruct n as [|n].
  - destruct m as [|m]; [cbn in Hp; lia|]. change (2 ^ Z.of_nat 0) with 1 in *. cbn [Nat.sub] in L. rewrite ?Nat.sub_0_r in L.
    change (2 ^ Z.of_nat 0) with 1 in L.
    rewrite Nat2Z.inj_succ, Z.pow_succ_r in Hp, Hc by lia. pose proof (pow_pos_nat 3 m ltac:(lia)) as P3. set (w := 3 ^ Z.of_nat m) in *.
    assert (R : reaches d 1 m) by (unfold reaches; change (2 ^ Z.of_nat 1) with 2; fold w; lia). specialize (Hmin 1%nat m R). pose proof (count_splits_closed 1 m) as C1. change (2 ^ Z.of_nat 1) with 2 in C1. fold w in C1.
    assert (w = 1) by lia. assert (d = 2) by lia. subst d. vm_compute in E. injection E as _ X _ _. discriminate X.
  - cbn [Nat.sub] in L. replace (n - 0)%nat with n in L by lia. replace (m - 0)%nat with m in L by lia. rewrite Nat2Z.inj_succ, Z.pow_succ_r in Hp, Hc by lia. pose proof (pow_pos_nat 3 m ltac:(lia)) as P3. pose proof (pow_pos_nat 2 n ltac:(lia)) as P2.
    assert (R : reaches d n m) by (unfold reaches; lia). specialize (Hmin n m R). pose proof (count_splits_closed n m) as C1. lia.
Qed.
Lemma cut_first n m l : 0 <= l < under n m 1 -> cut_at n m l 1 = 0.
Proof.
  intros H. unfold cut_at. rewrite (Z.div_small l (under n m 1)) by lia. rewrite Z.div_small; [lia|]. unfold under in *. rewrite Nat.sub_0_r. replace (m - (0 - n))%nat with m by lia.
  assert (2 ^ Z.of_nat (n - 1) <= 2 ^ Z.of_nat n) by (apply Z.pow_le_mono_r; lia). assert (3 ^ Z.of_nat (m - (1 - n)) <= 3 ^ Z.of_nat m) by (apply Z.pow_le_mono_r; lia).
  pose proof (pow_pos_nat 3 (m - (1 - n)) ltac:(lia)). pose proof (pow_pos_nat 2 (n - 1) ltac:(lia)). split; [lia|]. eapply Z.lt_le_trans; [apply H|]. apply Z.mul_le_mono_nonneg; lia.
Qed.
Lemma cuts_cut n m q k : (0 < k)%nat -> cuts n m q k = cut_at n m q k.
Proof. intros H. destruct k as [|k]; [lia|]. unfold cuts, cut_at. replace (S k - 1)%nat with k by lia. reflexivity. Qed.

Lemma qc_div_le x k : (Q2Qc 0 <= x)%Qc -> 1 <= k -> (x / frac_of_Z k <= x)%Qc.
Proof.
  intros H Hk. assert (E : x = (x / frac_of_Z k + frac_of_Z (k - 1) * (x / frac_of_Z k))%Qc).
  { assert (X : frac_of_Z k = (1 + frac_of_Z (k - 1))%Qc) by (rewrite <- foz_1, <- foz_plus; f_equal; lia). transitivity (frac_of_Z k * (x / frac_of_Z k))%Qc; [field; apply foz_neq0; lia|]. rewrite X at 1. ring. }
  rewrite E at 2. apply qc_add_le. apply nonneg_mult; [apply foz_nonneg; lia|apply nonneg_over; [exact H|lia]].
Qed.

Section Tree.
Variables (n m : nat) (fams : nat -> list (nat * Z)) (N : nat -> Z) (Fl : Qc) (lvl lta : Z) (bottom : list nat) (hs hb : heap Qc) (a : nat).
Notation K := (n + m)%nat.
Notation lev i := (lv K N bottom hs a i).
Hypothesis HK : (0 < K)%nat.
Hypothesis Ha : (a < length hs)%nat.
Hypothesis Hbot : forall x, In x bottom -> (x < length hs)%nat.
Hypothesis Abot : ~ In a bottom.
Hypothesis Hfams : forall k t c, In (t, c) (fams k) -> (t < length hs)%nat.
Hypothesis Pos : (Q2Qc 0 < Fl)%Qc.
Hypothesis Bt : built n K fams N (fun k => (Fl / frac_of_Z (slots n k))%Qc) lvl lta bottom hs a K hb.

Definition tr_through (w : nat) : Qc := if (w =? a)%nat then Fl else n_value (get hb w).
Definition tr_belt (p y : nat) : Qc := (tr_through p / frac_of_Z (Z.of_nat (length (kids hb p))))%Qc.

Lemma tr_length : length hb = start N hs K.
Proof. pose proof (b_length _ _ _ _ _ _ _ _ _ _ _ _ Bt) as L. rewrite Nat.eqb_refl in L. exact L. Qed.
Lemma tr_grow : (length hs <= length hb)%nat.
Proof. rewrite tr_length. apply start_ge. Qed.
Lemma tr_disjoint i j x : (i < j <= K)%nat -> In x (lev i) -> In x (lev j) -> False.
Proof. apply (lv_disjoint K N bottom hs a Ha HK Hbot Abot). Qed.
Lemma tr_new i w : (0 < i < K)%nat -> In w (lev i) -> (length hs <= w < length hb)%nat.
Proof.
  intros Hi I. rewrite lv_mid in I by lia. apply in_seq in I. pose proof (start_ge N hs i). rewrite tr_length. pose proof (start_mono N hs (S i) K ltac:(lia)) as S1. rewrite start_SS in S1 by lia. lia.
Qed.
Lemma tr_inner i w : (i < K)%nat -> In w (lev i) -> w = a \/ (length hs <= w < length hb)%nat.
Proof. intros Hi I. destruct i as [|i]; [left; destruct I as [<-|[]]; reflexivity|right; apply (tr_new (S i)); [lia|exact I]]. Qed.
Lemma tr_mid w : w = a \/ (length hs <= w < length hb)%nat -> exists i, (i < K)%nat /\ In w (lev i).
Proof.
  intros [->|[L1 L2]]; [exists O; split; [exact HK|left; reflexivity]|]. rewrite tr_length in L2.
  assert (X : forall k, (0 < k <= K)%nat -> (w < start N hs k)%nat -> exists i, (0 < i < k)%nat /\ In w (lev i)).
  { induction k as [|k IH]; intros Hk Lw; [lia|]. destruct k as [|k]; [cbn in Lw; lia|]. rewrite start_SS in Lw by lia. destruct (Nat.lt_ge_cases w (start N hs (S k))) as [L|L].
    - destruct (IH ltac:(lia) L) as (i & Hi & I). exists i. split; [lia|exact I].
    - exists (S k). split; [lia|]. rewrite lv_mid by lia. apply in_seq. lia. }
  destruct (X K ltac:(lia) L2) as (i & Hi & I). exists i. split; [lia|exact I].
Qed.
Lemma tr_at i w : (i < K)%nat -> In w (lev i) -> tr_through w = (Fl / frac_of_Z (slots n i))%Qc.
Proof.
  intros Hi I. unfold tr_through. destruct i as [|i].
  - destruct I as [<-|[]]. rewrite Nat.eqb_refl, slots_0, foz_1. symmetry. apply qc_div_1.
  - destruct (b_fresh _ _ _ _ _ _ _ _ _ _ _ _ Bt (S i) w ltac:(lia) ltac:(lia) I) as (V & _). rewrite (proj2 (Nat.eqb_neq w a)); [exact V|]. apply tr_new in I; [|lia]. lia.
Qed.
Lemma tr_fan i w : (i < K)%nat -> In w (lev i) -> Z.of_nat (length (kids hb w)) = radix n (S i).
Proof. intros Hi I. destruct (b_level _ _ _ _ _ _ _ _ _ _ _ _ Bt i Hi) as (F & _). apply F, I. Qed.
Lemma tr_sends i w y : (i < K)%nat -> In w (lev i) -> tr_belt w y = (Fl / frac_of_Z (slots n (S i)))%Qc.
Proof.
  intros Hi I. unfold tr_belt. rewrite (tr_fan i w Hi I), (tr_at i w Hi I), slots_S, foz_mult. pose proof (radix_pos n (S i)). pose proof (slots_pos n i). field. split; apply foz_neq0; lia.
Qed.
Lemma tr_kid i w y : (i < K)%nat -> In w (lev i) -> In y (kids hb w) -> In y (loops_of (fams (S i))) \/ In y (lev (S i)).
Proof.
  intros Hi I J. destruct (b_level _ _ _ _ _ _ _ _ _ _ _ _ Bt i Hi) as (_ & Pm & _). apply in_app_or. apply (Permutation_in y Pm). apply in_flat_map. exists w. auto.
Qed.
Lemma tr_parent i y : (i < K)%nat -> In y (lev (S i)) -> exists p, In p (lev i) /\ pars hb y = [p] /\ p <> y.
Proof.
  intros Hi I. destruct (b_level _ _ _ _ _ _ _ _ _ _ _ _ Bt i Hi) as (_ & Pm & Pa). destruct (Pa y I) as (p & Ip & E). exists p. split; [exact Ip|]. split; [exact E|].
  intros ->. apply (tr_disjoint i (S i) y); [lia|exact Ip|exact I].
Qed.
Lemma tr_child i y : (i < K)%nat -> In y (lev (S i)) -> exists p, In p (lev i) /\ In y (kids hb p).
Proof.
  intros Hi I. destruct (b_level _ _ _ _ _ _ _ _ _ _ _ _ Bt i Hi) as (_ & Pm & _). apply (in_flat_map (fun x => kids hb x)).
  apply (Permutation_in y (Permutation_sym Pm)), in_or_app. right. exact I.
Qed.
Lemma tr_reached i w : (i < K)%nat -> In w (lev i) -> reached (fun x => kids hb x) [a] w.
Proof.
  revert w. induction i as [|i IH]; intros w Hi I; [apply reached_root, I|]. destruct (tr_child i w ltac:(lia) I) as (p & Ip & J). apply (reached_out _ _ p w); [apply IH; [lia|exact Ip]|exact J].
Qed.
Lemma tr_loop_old i y : In y (loops_of (fams i)) -> (y < length hs)%nat.
Proof. intros I. apply loops_in in I. destruct I as (k & I). apply (Hfams i y k I). Qed.
Lemma tr_noself w : (length hs <= w < length hb)%nat -> ~ In w (kids hb w).
Proof.
  intros Hw I. destruct (tr_mid w (or_intror Hw)) as (i & Hi & J). destruct (tr_kid i w w Hi J I) as [X|X]; [apply tr_loop_old in X; lia|]. apply (tr_disjoint i (S i) w); [lia|exact J|exact X].
Qed.
(** a new node gets its flow from its parent *)
Lemma tr_balance w : (length hs <= w < length hb)%nat -> exists p, (p = a \/ (length hs <= p < length hb)%nat) /\ p <> w /\ pars hb w = [p] /\ tr_through w = tr_belt p w.
Proof.
  intros Hw. destruct (tr_mid w (or_intror Hw)) as (i & Hi & J). destruct i as [|i]; [destruct J as [J|[]]; lia|]. destruct (tr_parent i w ltac:(lia) J) as (p & Ip & E & Ne).
  exists p. split; [apply (tr_inner i); [lia|exact Ip]|]. split; [exact Ne|]. split; [exact E|]. rewrite (tr_at (S i) w Hi J), (tr_sends i p w ltac:(lia) Ip). reflexivity.
Qed.
Lemma tr_splits w : w = a \/ (length hs <= w < length hb)%nat -> (1 <= length (kids hb w) <= 3)%nat.
Proof. intros Hw. destruct (tr_mid w Hw) as (i & Hi & J). pose proof (tr_fan i w Hi J). pose proof (radix_pos n (S i)). lia. Qed.
Lemma tr_positive w : w = a \/ (length hs <= w < length hb)%nat -> (Q2Qc 0 < tr_through w)%Qc /\ (tr_through w <= Fl)%Qc /\ forall y, (Q2Qc 0 < tr_belt w y)%Qc.
Proof.
  intros Hw. destruct (tr_mid w Hw) as (i & Hi & J). pose proof (slots_pos n i). rewrite (tr_at i w Hi J). split; [apply qc_pos_div; [exact Pos|lia]|]. split.
  - apply qc_div_le; [apply Qclt_le_weak, Pos|lia].
  - intros y. rewrite (tr_sends i w y Hi J). apply qc_pos_div; [exact Pos|]. pose proof (slots_pos n (S i)). lia.
Qed.

(** the level of a node of the tree *)
Definition tr_level (w : nat) : nat := match find (fun i => existsb (Nat.eqb w) (lev i)) (seq 0 K) with Some i => i | None => O end.
Lemma tr_level_at i w : (i < K)%nat -> In w (lev i) -> tr_level w = i.
Proof.
  intros Hi I. unfold tr_level. destruct (find _ _) as [j|] eqn:E.
  - apply find_some in E. destruct E as [J E]. apply in_seq in J. apply existsb_exists in E. destruct E as (z & Iz & Ez). apply Nat.eqb_eq in Ez. subst z.
    destruct (Nat.lt_trichotomy i j) as [L|[L|L]]; [|symmetry; exact L|]; exfalso; [apply (tr_disjoint i j w)|apply (tr_disjoint j i w)]; try assumption; lia.
  - exfalso. pose proof (find_none _ _ E i) as X. cbn beta in X. rewrite (proj2 (existsb_exists _ _)) in X; [|exists w; split; [exact I|apply Nat.eqb_refl]]. discriminate X. apply in_seq. lia.
Qed.
(** the belts that lead to [x] *)
Lemma tr_extra x : (x < length hs)%nat -> ~ In x bottom -> exists extra, pars hb x = pars hs x ++ extra /\
  (forall p, In p extra -> exists i, (i < K)%nat /\ In p (lev i) /\ In x (loops_of (fams (S i)))) /\
  qcsum (map (fun p => tr_belt p x) extra) = flow_to x n m Fl (fun k => loops_of (fams k)) /\
  map (fun p => S (tr_level p)) extra = flat_map (fun i => repeat i (cnt x (loops_of (fams i)))) (seq 1 K).
Proof.
  intros Bx Nx. destruct (b_parents _ _ _ _ _ _ _ _ _ _ _ _ Bt x Bx (or_intror Nx)) as (extra & E & _ & F2). exists extra. split; [exact E|].
  assert (R : forall i, In i (flat_map (fun i => repeat i (cnt x (loops_of (fams i)))) (seq 1 K)) -> (0 < i <= K)%nat /\ In x (loops_of (fams i))).
  { intros i I. apply in_flat_map in I. destruct I as (j & J & I). assert (C : (0 < cnt x (loops_of (fams j)))%nat) by (destruct (cnt x (loops_of (fams j))); [destruct I|lia]). apply repeat_spec in I. subst j. apply in_seq in J. split; [lia|apply cnt_in, C]. }
  assert (S1 : qcsum (map (fun i => (Fl / frac_of_Z (slots n i))%Qc) (flat_map (fun i => repeat i (cnt x (loops_of (fams i)))) (seq 1 K))) = flow_to x n m Fl (fun k => loops_of (fams k))).
  { unfold flow_to. clear. induction (seq 1 K) as [|i l IH]; [reflexivity|]. cbn [flat_map map]. rewrite map_app, qcsum_app, IH. rewrite (qcsum_repeat (fun i => (Fl / frac_of_Z (slots n i))%Qc)). reflexivity. }
  rewrite <- S1. clear S1 E. induction F2 as [|p i extra l Hp F2 IH]; [split; [intros p []|split; reflexivity]|]. destruct IH as (I1 & I2 & I3); [intros j J; apply R; right; exact J|].
  destruct (R i (or_introl eq_refl)) as (Hi & Ii). assert (Hi' : (i - 1 < K)%nat) by lia. split; [|split].
  - intros q [<-|J]; [exists (i - 1)%nat; replace (S (i - 1))%nat with i by lia; auto|apply I1, J].
  - cbn [map qcsum fold_right]. rewrite (tr_sends (i - 1) p x Hi' Hp). replace (S (i - 1))%nat with i by lia. f_equal. exact I2.
  - cbn [map]. rewrite (tr_level_at (i - 1) p Hi' Hp). replace (S (i - 1))%nat with i by lia. f_equal. exact I3.
Qed.
Lemma tr_bottom c : In c bottom -> exists p, (p = a \/ (length hs <= p < length hb)%nat) /\ pars hb c = [p] /\ tr_belt p c = (Fl / frac_of_Z (slots n K))%Qc.
Proof.
  intros I. destruct (tr_parent (K - 1) c ltac:(lia)) as (p & Ip & E & _).
  - replace (S (K - 1)) with K by lia. rewrite lv_K by exact HK. exact I.
  - exists p. split; [apply (tr_inner (K - 1)); [lia|exact Ip]|]. split; [exact E|]. rewrite (tr_sends (K - 1) p c ltac:(lia) Ip). replace (S (K - 1)) with K by lia. reflexivity.
Qed.
(** the number of new nodes, each of which is one splitter *)
Lemma tr_number : N O = 1 -> (forall k, (k <= K)%nat -> 0 <= N k) -> 1 + Z.of_nat (length hb - length hs) = zsum (map N (seq 0 K)).
Proof.
  intros N0 NN. rewrite tr_length.
  assert (G : forall j, (S j <= K)%nat -> 1 + Z.of_nat (start N hs (S j) - length hs) = zsum (map N (seq 0 (S j)))).
  { induction j as [|j IH]; intros Hj; [cbn; rewrite N0, Nat.sub_diag; reflexivity|]. rewrite seq_S, map_app, zsum_app, <- IH by lia. rewrite start_SS by lia. pose proof (start_ge N hs (S j)). pose proof (NN (S j) ltac:(lia)). cbn [Nat.add map zsum fold_right]. lia. }
  specialize (G (K - 1)%nat ltac:(lia)). replace (S (K - 1)) with K in G by lia. exact G.
Qed.
Lemma tr_count roots : (forall r, In r roots -> (r < length hs)%nat) ->
  list_sum (map (at_node roots (fun x => kids hb x) (fun x => pars hb x)) (seq (length hs) (length hb - length hs))) = (length hb - length hs)%nat.
Proof.
  intros R. assert (G : forall l, (forall w, In w l -> (length hs <= w < length hb)%nat) -> list_sum (map (at_node roots (fun x => kids hb x) (fun x => pars hb x)) l) = length l).
  { induction l as [|w l IH]; intros H; [reflexivity|]. cbn [map length]. change (list_sum (?u :: ?v)) with (u + list_sum v)%nat. rewrite IH by (intros x I; apply H; right; exact I). specialize (H w (or_introl eq_refl)).
    destruct (tr_balance w H) as (p & _ & _ & E & _). unfold at_node, fan_in, source. rewrite E, (cnt_out w _ (tr_noself w H)). destruct (in_dec Nat.eq_dec w roots) as [I|_]; [apply R in I; lia|].
    destruct (tr_mid w (or_intror H)) as (i & Hi & J). pose proof (tr_fan i w Hi J) as Fn. unfold radix in Fn. cbv beta. destruct (Nat.leb_spec 2 (length (kids hb w))) as [_|X]; [reflexivity|]. destruct (S i <=? n)%nat; lia. }
  rewrite G by (intros w I; apply in_seq in I; lia). apply seq_length.
Qed.
(** links agree on both ends, as far as they did *)
Lemma tr_linked D : linked_but D bottom hs -> forall x y, D x y -> cnt y (kids hb x) = cnt x (pars hb y).
Proof. intros L x y HD. pose proof (b_linked _ _ _ _ _ _ _ _ _ _ _ _ Bt D L x y HD) as X. rewrite Nat.eqb_refl in X. exact X. Qed.
(** nothing leads from [a] to itself *)
Lemma tr_own : cnt a (loops_of (fams 1)) = O -> ~ In a (kids hb a).
Proof.
  intros C I. destruct (tr_kid 0 a a HK (or_introl eq_refl) I) as [X|X]; [apply cnt_in in X; lia|]. destruct (Nat.eq_dec K 1) as [E|E].
  - rewrite <- E, lv_K in X by exact HK. contradiction.
  - apply (tr_disjoint 0 1 a); [lia|left; reflexivity|exact X].
Qed.
End Tree.
