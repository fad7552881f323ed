(** Lemmas about src/cost.py (proofs of C01-C06). *)
From Verif Require Import Base BaseLemmas Cost CostSpec.
From Coq Require Import ZifyBool ZifyNat QArith Lqa.
Open Scope Z_scope.
Ltac Zify.zify_post_hook ::= Z.div_mod_to_equations.

(** ** merge_cost *)

Lemma merge_cost_loop_spec : forall fuel n t r,
  n - t <= Z.of_nat fuel -> t < n \/ n <= t ->
  merge_cost_loop fuel n t r = r + (if n <=? t then 0 else (n - t + 1) / 2).
Proof.
  induction fuel as [|f IH]; intros n t r Hf _; cbn [merge_cost_loop].
  - destruct (Z.leb_spec n t); lia.
  - destruct (n >? t) eqn:E; [|destruct (Z.leb_spec n t); lia].
    rewrite IH by lia.
    destruct (Z.leb_spec (n - 2) t), (Z.leb_spec n t); lia.
Qed.

Lemma merge_cost_closed n t :
  merge_cost n t = if n <=? t then 0 else (n - t + 1) / 2.
Proof.
  unfold merge_cost. destruct (Z.leb_spec n t); [reflexivity|].
  rewrite merge_cost_loop_spec by lia.
  destruct (Z.leb_spec n t); lia.
Qed.

Lemma merge_cost_nonneg n t : 0 <= merge_cost n t.
Proof. rewrite merge_cost_closed. destruct (Z.leb_spec n t); lia. Qed.

Lemma merge_cost_pos n t : t < n -> 1 <= merge_cost n t.
Proof. intros H. rewrite merge_cost_closed. destruct (Z.leb_spec n t); lia. Qed.

Lemma merged_lower k a b : merged k a b -> a - 2 * Z.of_nat k <= b.
Proof. induction 1; lia. Qed.

Lemma merged_achieve : forall k n t, 1 <= t ->
  merge_cost n t = Z.of_nat k -> exists b, merged k n b /\ b <= t.
Proof.
  induction k as [|k IH]; intros n t Ht H.
  - exists n. split; [constructor|].
    rewrite merge_cost_closed in H. destruct (Z.leb_spec n t); lia.
  - assert (Hn : t < n).
    { rewrite merge_cost_closed in H. destruct (Z.leb_spec n t); lia. }
    destruct (Z.eq_dec n 2) as [->|Hn2].
    + exists 1. rewrite merge_cost_closed in H. destruct (Z.leb_spec 2 t); [lia|].
      assert (k = 0%nat) by lia. subst k. split; [|lia].
      apply merged_two; [lia|]. constructor.
    + destruct (IH (n - 2) t Ht) as [b [Hb Hbt]].
      { rewrite merge_cost_closed in *.
        destruct (Z.leb_spec n t), (Z.leb_spec (n - 2) t); lia. }
      exists b. split; [|exact Hbt]. apply merged_three; [lia|exact Hb].
Qed.

Lemma merge_cost_minimal n t k b :
  0 <= n -> merged k n b -> b <= t -> merge_cost n t <= Z.of_nat k.
Proof.
  intros Hn H Hb. apply merged_lower in H. rewrite merge_cost_closed.
  destruct (Z.leb_spec n t); lia.
Qed.

(** ** splitter trees *)

Lemma leaves_ternary m : leaves (ternary m) = 3 ^ Z.of_nat m.
Proof.
  induction m as [|m IH]; [reflexivity|].
  cbn [ternary leaves fold_right]. rewrite IH, Nat2Z.inj_succ, Z.pow_succ_r by lia. lia.
Qed.

Lemma leaves_full n m : leaves (full n m) = 2 ^ Z.of_nat n * 3 ^ Z.of_nat m.
Proof.
  induction n as [|n IH]; cbn [full].
  - rewrite leaves_ternary. change (Z.of_nat 0) with 0. lia.
  - cbn [leaves fold_right]. rewrite IH, (Nat2Z.inj_succ n), Z.pow_succ_r by lia. lia.
Qed.

Lemma splitters_ternary m : 2 * splitters (ternary m) = 3 ^ Z.of_nat m - 1.
Proof.
  induction m as [|m IH]; [reflexivity|].
  cbn [ternary splitters fold_right]. rewrite Nat2Z.inj_succ, Z.pow_succ_r by lia. lia.
Qed.

Lemma splitters_full n m :
  2 * splitters (full n m) = 2 ^ Z.of_nat n * 3 ^ Z.of_nat m + 2 ^ Z.of_nat n - 2.
Proof.
  induction n as [|n IH]; cbn [full].
  - rewrite splitters_ternary. change (Z.of_nat 0) with 0. lia.
  - cbn [splitters fold_right]. rewrite (Nat2Z.inj_succ n), Z.pow_succ_r by lia. lia.
Qed.

(** ** count_splits *)

Lemma count_splits_bin_spec : forall n nodes r, 0 <= nodes ->
  count_splits_bin n nodes r
  = (nodes * 2 ^ Z.of_nat n, r + nodes * (2 ^ Z.of_nat n - 1)).
Proof.
  induction n as [|n IH]; intros nodes r H; cbn [count_splits_bin].
  - change (Z.of_nat 0) with 0. f_equal; lia.
  - rewrite IH by lia. rewrite Nat2Z.inj_succ, Z.pow_succ_r by lia.
    rewrite Z.div_mul by lia. f_equal; lia.
Qed.

Lemma count_splits_ter_spec : forall m nodes r, 0 <= nodes ->
  fst (count_splits_ter m nodes r) = nodes * 3 ^ Z.of_nat m /\
  2 * snd (count_splits_ter m nodes r) = 2 * r + nodes * (3 ^ Z.of_nat m - 1).
Proof.
  induction m as [|m IH]; intros nodes r H; cbn [count_splits_ter fst snd].
  - change (Z.of_nat 0) with 0. lia.
  - destruct (IH (nodes * 3) (r + nodes * 3 / 3) ltac:(lia)) as [H1 H2].
    rewrite Nat2Z.inj_succ, Z.pow_succ_r by lia.
    rewrite Z.div_mul in * by lia. lia.
Qed.

Lemma count_splits_closed n m :
  2 * count_splits n m = 2 ^ Z.of_nat n * 3 ^ Z.of_nat m + 2 ^ Z.of_nat n - 2.
Proof.
  unfold count_splits. rewrite count_splits_bin_spec by lia.
  destruct (count_splits_ter_spec m (1 * 2 ^ Z.of_nat n) (0 + 1 * (2 ^ Z.of_nat n - 1)))
    as [_ H]; [lia|]. lia.
Qed.

Lemma count_splits_spec n m : count_splits n m = splitters (full n m).
Proof. pose proof (count_splits_closed n m). pose proof (splitters_full n m). lia. Qed.

(** ** find_n_m_l *)

Lemma pow_pos_nat b k : 0 < b -> 1 <= b ^ Z.of_nat k.
Proof. intros H. assert (0 < b ^ Z.of_nat k) by (apply Z.pow_pos_nonneg; lia). lia. Qed.

Lemma pow_le_nat b i j : 1 <= b -> (i <= j)%nat -> b ^ Z.of_nat i <= b ^ Z.of_nat j.
Proof. intros. apply Z.pow_le_mono_r; lia. Qed.

Lemma pow2_ge_succ k : Z.of_nat k + 1 <= 2 ^ Z.of_nat k.
Proof.
  induction k as [|k IH]; [reflexivity|].
  rewrite Nat2Z.inj_succ, Z.pow_succ_r by lia. lia.
Qed.

Lemma exp_above_spec : forall fuel b X e k,
  exp_above fuel b X e = Ok k ->
  (e <= k)%nat /\ X < b ^ Z.of_nat k /\
  forall j, (e <= j < k)%nat -> b ^ Z.of_nat j <= X.
Proof.
  induction fuel as [|f IH]; intros b X e k H; cbn [exp_above] in H; [discriminate|].
  destruct (Z.leb_spec (b ^ Z.of_nat e) X) as [Hle|Hlt].
  - apply IH in H. destruct H as (H1 & H2 & H3). repeat split; try lia.
    intros j Hj. destruct (Nat.eq_dec j e) as [->|]; [exact Hle|]. apply H3. lia.
  - injection H as <-. repeat split; try lia.
Qed.

Lemma exp_above_total : forall fuel b X e k,
  2 <= b -> X < b ^ Z.of_nat k -> (k < e + fuel)%nat -> (e <= k)%nat ->
  exists r, exp_above fuel b X e = Ok r.
Proof.
  induction fuel as [|f IH]; intros b X e k Hb Hk Hf He; [lia|].
  cbn [exp_above]. destruct (Z.leb_spec (b ^ Z.of_nat e) X) as [Hle|Hlt].
  - destruct (Nat.eq_dec e k) as [->|Hne]; [lia|].
    apply (IH b X (S e) k); try assumption; lia.
  - eauto.
Qed.

Lemma exp_above_enough b X : 2 <= b -> 1 <= X ->
  exists r, exp_above (3 + Z.to_nat (Z.log2 X)) b X 0 = Ok r.
Proof.
  intros Hb HX. apply exp_above_total with (k := S (Z.to_nat (Z.log2 X))); try lia.
  destruct (Z.log2_spec X) as [_ H]; [lia|].
  pose proof (Z.log2_nonneg X).
  eapply Z.lt_le_trans; [exact H|].
  rewrite Nat2Z.inj_succ, Z2Nat.id by lia.
  apply Z.pow_le_mono_l; lia.
Qed.

(** a candidate of the search box *)
Definition reaches (X : Z) (n m : nat) : Prop := X <= 2 ^ Z.of_nat n * 3 ^ Z.of_nat m.

Definition nml_ok (X : Z) (P : nat -> nat -> Prop) (st : nml_state) : Prop :=
  match st with
  | (n, m, l, Some s) =>
      reaches X n m /\ l = 2 ^ Z.of_nat n * 3 ^ Z.of_nat m - X /\ s = count_splits n m /\
      forall n' m', P n' m' -> reaches X n' m' -> s <= count_splits n' m'
  | (_, _, _, None) => forall n' m', P n' m' -> ~ reaches X n' m'
  end.

Lemma nml_body_ok X P m n st :
  nml_ok X P st ->
  nml_ok X (fun n' m' => P n' m' \/ (n' = n /\ m' = m)) (nml_body X m st n).
Proof.
  destruct st as [[[bn bm] l] [k|]]; cbn [nml_ok nml_body]; intros H.
  - destruct H as (H1 & H2 & H3 & H4).
    destruct (Z.ltb_spec (2 ^ Z.of_nat n * 3 ^ Z.of_nat m) X) as [Hlt|Hge]; cbn [nml_ok].
    + repeat split; auto. intros n' m' [HP|[-> ->]] Hr; [auto|unfold reaches in Hr; lia].
    + destruct (count_splits n m >=? k) eqn:E; cbn [nml_ok].
      * repeat split; auto. intros n' m' [HP|[-> ->]] Hr; [auto|lia].
      * repeat split; auto. intros n' m' [HP|[-> ->]] Hr; [|lia].
        specialize (H4 n' m' HP Hr). lia.
  - destruct (Z.ltb_spec (2 ^ Z.of_nat n * 3 ^ Z.of_nat m) X) as [Hlt|Hge]; cbn [nml_ok].
    + intros n' m' [HP|[-> ->]]; [auto|unfold reaches; lia].
    + repeat split; auto. intros n' m' [HP|[-> ->]] Hr; [|lia].
      exfalso. exact (H n' m' HP Hr).
Qed.

Lemma nml_ok_ext X (P Q : nat -> nat -> Prop) st :
  (forall n m, Q n m -> P n m) -> nml_ok X P st -> nml_ok X Q st.
Proof.
  destruct st as [[[bn bm] l] [k|]]; cbn [nml_ok]; intros HPQ H.
  - destruct H as (H1 & H2 & H3 & H4). repeat split; auto.
  - intros n m HQ. apply H. auto.
Qed.

Lemma nml_row_ok X m : forall ns P st,
  nml_ok X P st ->
  nml_ok X (fun n' m' => P n' m' \/ (In n' ns /\ m' = m)) (fold_left (nml_body X m) ns st).
Proof.
  induction ns as [|n ns IH]; intros P st H; cbn [fold_left].
  - eapply nml_ok_ext; [|exact H]. cbn. intros ? ? [?|[[] _]]; assumption.
  - eapply nml_ok_ext; [|apply IH, nml_body_ok, H].
    cbn. intros n' m' [?|[[->|?] ->]]; auto.
Qed.

Lemma nml_all_ok X ns : forall ms P st,
  nml_ok X P st ->
  nml_ok X (fun n' m' => P n' m' \/ (In n' ns /\ In m' ms))
    (fold_left (fun st m => fold_left (nml_body X m) ns st) ms st).
Proof.
  induction ms as [|m ms IH]; intros P st H; cbn [fold_left].
  - eapply nml_ok_ext; [|exact H]. cbn. intros ? ? [?|[_ []]]; assumption.
  - eapply nml_ok_ext; [|apply IH, nml_row_ok, H].
    cbn. intros n' m' [?|[? [->|?]]]; auto.
Qed.

Lemma count_splits_mono n m n' m' :
  (n <= n')%nat -> (m <= m')%nat -> count_splits n m <= count_splits n' m'.
Proof.
  intros Hn Hm. pose proof (count_splits_closed n m). pose proof (count_splits_closed n' m').
  pose proof (pow_le_nat 2 n n' ltac:(lia) Hn). pose proof (pow_le_nat 3 m m' ltac:(lia) Hm).
  pose proof (pow_pos_nat 2 n ltac:(lia)). pose proof (pow_pos_nat 3 m ltac:(lia)).
  assert (2 ^ Z.of_nat n * 3 ^ Z.of_nat m <= 2 ^ Z.of_nat n' * 3 ^ Z.of_nat m')
    by (apply Z.mul_le_mono_nonneg; lia).
  lia.
Qed.

Lemma find_n_m_l_spec X : 1 <= X ->
  exists n m l s, find_n_m_l X = Ok (n, m, l, s) /\
    2 ^ Z.of_nat n * 3 ^ Z.of_nat m = X + l /\ 0 <= l /\ s = count_splits n m /\
    forall n' m', reaches X n' m' -> s <= count_splits n' m'.
Proof.
  intros HX. unfold find_n_m_l.
  destruct (Z.eqb_spec X 0) as [->|_]; [lia|].
  destruct (exp_above_enough 2 X) as [mn Hmn]; try lia.
  destruct (exp_above_enough 3 X) as [mm Hmm]; try lia.
  rewrite Hmn. cbn [bind]. rewrite Hmm. cbn [bind].
  destruct (exp_above_spec _ _ _ _ _ Hmn) as (_ & Hn2 & _).
  destruct (exp_above_spec _ _ _ _ _ Hmm) as (_ & Hm2 & _).
  pose proof (nml_all_ok X (seq 0 (S mn)) (seq 0 (S mm)) (fun _ _ => False)
                (0%nat, 0%nat, 0, None)) as H.
  specialize (H ltac:(cbn; tauto)).
  set (st := fold_left _ (seq 0 (S mm)) _) in *. clearbody st.
  destruct st as [[[n m] l] [s|]]; cbn [nml_ok] in H.
  - destruct H as (H1 & H2 & H3 & H4). unfold reaches in H1.
    exists n, m, l, s. repeat split; try lia.
    intros n' m' Hr.
    destruct (Nat.le_gt_cases n' mn) as [Hn'|Hn']; [destruct (Nat.le_gt_cases m' mm) as [Hm'|Hm']|].
    + apply H4; [|exact Hr]. right. rewrite !in_seq. lia.
    + etransitivity; [|apply (count_splits_mono 0 mm n' m'); lia].
      apply H4; [right; rewrite !in_seq; lia|]. unfold reaches.
      change (Z.of_nat 0) with 0. lia.
    + etransitivity; [|apply (count_splits_mono mn 0 n' m'); lia].
      apply H4; [right; rewrite !in_seq; lia|]. unfold reaches.
      change (Z.of_nat 0) with 0. lia.
  - exfalso. apply (H mn 0%nat); [right; rewrite !in_seq; lia|].
    unfold reaches. change (Z.of_nat 0) with 0. lia.
Qed.

(** l < X, by comparison with one of 3^m, 4*3^(m-1), 2*3^m *)
Lemma three_bracket : forall X, 1 <= X ->
  exists m, 3 ^ Z.of_nat m <= X < 3 ^ Z.of_nat (S m).
Proof.
  intros X HX.
  destruct (exp_above_enough 3 X) as [k Hk]; try lia.
  destruct (exp_above_spec _ _ _ _ _ Hk) as (_ & H2 & H3).
  destruct k as [|k]; [change (3 ^ Z.of_nat 0) with 1 in H2; lia|].
  exists k. split; [apply H3; lia|exact H2].
Qed.

Lemma find_n_m_l_l_small X n m l s : 1 <= X ->
  find_n_m_l X = Ok (n, m, l, s) -> l < X.
Proof.
  intros HX H. destruct (find_n_m_l_spec X HX) as (n0 & m0 & l0 & s0 & H0 & Hp & Hl & Hs & Hmin).
  rewrite H in H0. injection H0 as <- <- <- <-.
  pose proof (count_splits_closed n m) as Hc. rewrite <- Hs in Hc.
  pose proof (pow_pos_nat 2 n ltac:(lia)) as H2n.
  assert (Hcomp : forall n' m', reaches X n' m' ->
     X + l + 1 <= 2 ^ Z.of_nat n' * 3 ^ Z.of_nat m' + 2 ^ Z.of_nat n').
  { intros n' m' Hr. specialize (Hmin n' m' Hr). pose proof (count_splits_closed n' m'). lia. }
  destruct (three_bracket X HX) as [k [Hk1 Hk2]].
  rewrite Nat2Z.inj_succ, Z.pow_succ_r in Hk2 by lia.
  destruct (Z.eq_dec X (3 ^ Z.of_nat k)) as [E|E].
  - specialize (Hcomp 0%nat k). unfold reaches in Hcomp. change (Z.of_nat 0) with 0 in Hcomp. lia.
  - destruct k as [|k].
    + change (3 ^ Z.of_nat 0) with 1 in *. assert (X = 2) by lia. subst X.
      specialize (Hcomp 1%nat 0%nat). unfold reaches in Hcomp.
      change (2 ^ Z.of_nat 1) with 2 in Hcomp. change (3 ^ Z.of_nat 0) with 1 in Hcomp. lia.
    + rewrite Nat2Z.inj_succ, Z.pow_succ_r in * by lia.
      pose proof (pow_pos_nat 3 k ltac:(lia)) as Ht.
      pose proof (Hcomp 2%nat k) as C1. pose proof (Hcomp 1%nat (S k)) as C2.
      pose proof (Hcomp 0%nat (S (S k))) as C3. unfold reaches in *.
      change (2 ^ Z.of_nat 2) with 4 in *. change (2 ^ Z.of_nat 1) with 2 in *.
      change (2 ^ Z.of_nat 0) with 1 in *.
      rewrite !Nat2Z.inj_succ, !Z.pow_succ_r in * by lia.
      set (t := 3 ^ Z.of_nat k) in *. clearbody t.
      destruct (Z_le_gt_dec X (4 * t)); [lia|].
      destruct (Z_le_gt_dec X (6 * t)); lia.
Qed.

(** ** branch and splitter tables *)

Lemma splitters_ternary_S k : splitters (ternary (S k)) = splitters (ternary k) * 3 + 1.
Proof. cbn [ternary splitters fold_right]. lia. Qed.
Lemma splitters_full_S k m : splitters (full (S k) m) = splitters (full k m) * 2 + 1.
Proof. cbn [full splitters fold_right]. lia. Qed.
Lemma leaves_ternary_S k : leaves (ternary (S k)) = 3 * leaves (ternary k).
Proof. cbn [ternary leaves fold_right]. lia. Qed.
Lemma leaves_full_S k m : leaves (full (S k) m) = 2 * leaves (full k m).
Proof. cbn [full leaves fold_right]. lia. Qed.

Lemma ternary_chain_cons k : exists r, ternary_chain k = ternary k :: r.
Proof. destruct k; cbn [ternary_chain]; eauto. Qed.
Lemma chain_cons n m : exists r, chain n m = full n m :: r.
Proof. destruct n; cbn [chain full]; [apply ternary_chain_cons|eauto]. Qed.

Definition step_mul (k : Z) (l : list Z) : list Z :=
  match l with x :: _ => (x * k + 1) :: l | [] => l end.

Lemma iter_S {A} (f : A -> A) k a : Nat.iter (S k) f a = f (Nat.iter k f a).
Proof. reflexivity. Qed.

Lemma splitters_count_spec n m : compute_splitters_count n m = map splitters (chain n m).
Proof.
  change (compute_splitters_count n m)
    with (Nat.iter n (step_mul 2) (Nat.iter m (step_mul 3) [0])).
  induction n as [|n IH].
  - cbn [Nat.iter nat_rect chain]. induction m as [|m IH]; [reflexivity|].
    rewrite iter_S. unfold Nat.iter in IH. fold (Nat.iter m (step_mul 3) [0]) in IH.
    rewrite IH. cbn [ternary_chain map].
    destruct (ternary_chain_cons m) as [r ->]. cbn [map step_mul].
    rewrite splitters_ternary_S. reflexivity.
  - rewrite iter_S, IH. cbn [chain map].
    destruct (chain_cons n m) as [r ->]. cbn [map step_mul]. rewrite splitters_full_S. reflexivity.
Qed.

Definition step_div (k : Z) (l : list Z) : list Z := l ++ [last l 0 / k].

Lemma last_snoc {A} (l : list A) x d : last (l ++ [x]) d = x.
Proof. apply last_last. Qed.

Lemma iter_shift {A} (f : A -> A) k a : Nat.iter (S k) f a = Nat.iter k f (f a).
Proof. induction k as [|k IH]; [reflexivity|]. rewrite iter_S, IH. reflexivity. Qed.

Lemma iter_step_ter : forall m pre,
  Nat.iter m (step_div 3) (pre ++ [3 ^ Z.of_nat m]) = pre ++ map leaves (ternary_chain m).
Proof.
  induction m as [|m IH]; intros pre; [reflexivity|].
  rewrite iter_shift. unfold step_div at 2. rewrite last_snoc.
  rewrite Nat2Z.inj_succ, Z.pow_succ_r by lia.
  rewrite Z.mul_comm, Z.div_mul by lia.
  rewrite IH. cbn [ternary_chain map]. rewrite leaves_ternary_S, leaves_ternary, <- app_assoc.
  cbn [app]. do 2 f_equal. lia.
Qed.

Lemma iter_step_bin : forall n m pre,
  Nat.iter n (step_div 2) (pre ++ [2 ^ Z.of_nat n * 3 ^ Z.of_nat m])
  = pre ++ map leaves (firstn n (chain n m)) ++ [3 ^ Z.of_nat m].
Proof.
  induction n as [|n IH]; intros m pre.
  - cbn [Nat.iter nat_rect firstn map app]. change (2 ^ Z.of_nat 0) with 1. do 2 f_equal. lia.
  - rewrite iter_shift. unfold step_div at 2. rewrite last_snoc.
    rewrite Nat2Z.inj_succ, Z.pow_succ_r by lia.
    replace (2 * 2 ^ Z.of_nat n * 3 ^ Z.of_nat m) with (2 ^ Z.of_nat n * 3 ^ Z.of_nat m * 2) by lia.
    rewrite Z.div_mul by lia. rewrite IH. cbn [chain firstn map].
    rewrite leaves_full_S, leaves_full, <- app_assoc. cbn [app]. do 2 f_equal. lia.
Qed.

Lemma chain_skipn : forall n m, chain n m = firstn n (chain n m) ++ ternary_chain m.
Proof.
  induction n as [|n IH]; intros m; [reflexivity|].
  cbn [chain firstn app]. f_equal. apply IH.
Qed.

Lemma branches_count_spec n m : compute_branches_count n m = map leaves (chain n m).
Proof.
  change (compute_branches_count n m)
    with (Nat.iter m (step_div 3)
            (Nat.iter n (step_div 2) ([] ++ [2 ^ Z.of_nat n * 3 ^ Z.of_nat m]))).
  rewrite iter_step_bin. cbn [app].
  rewrite iter_step_ter. rewrite chain_skipn at 2. rewrite map_app. reflexivity.
Qed.

(** ** divisor chains and the greedy decomposition *)

Fixpoint dchain (bs : list Z) : Prop :=
  match bs with
  | [] => False
  | b :: r =>
      match r with
      | [] => b = 1
      | c :: _ => 1 <= b /\ (c | b) /\ dchain r
      end
  end.

Lemma dchain_cons b c r : dchain (b :: c :: r) <-> 1 <= b /\ (c | b) /\ dchain (c :: r).
Proof. reflexivity. Qed.

Lemma dchain_inv b c r : dchain (b :: c :: r) -> 1 <= b /\ (c | b) /\ dchain (c :: r).
Proof. intros H; exact H. Qed.

Lemma dchain_pos b r : dchain (b :: r) -> 1 <= b.
Proof. destruct r; cbn [dchain]; [lia|tauto]. Qed.

Lemma dchain_all_div b : forall r c, dchain (b :: r) -> In c r -> (c | b) /\ 1 <= c.
Proof.
  intros r; revert b; induction r as [|d r IH]; intros b c H Hc; [destruct Hc|].
  apply dchain_inv in H. destruct H as (H1 & H2 & H3).
  destruct Hc as [->|Hc]; [split; [exact H2|eapply dchain_pos; eauto]|].
  destruct (IH d c H3 Hc) as [Hd Hp]. split; [|exact Hp].
  eapply Z.divide_trans; eauto.
Qed.

Lemma leaves_ternary_pos m : 1 <= leaves (ternary m).
Proof. rewrite leaves_ternary. apply pow_pos_nat. lia. Qed.
Lemma leaves_full_pos n m : 1 <= leaves (full n m).
Proof.
  rewrite leaves_full. pose proof (pow_pos_nat 2 n ltac:(lia)).
  pose proof (pow_pos_nat 3 m ltac:(lia)). nia.
Qed.

Lemma dchain_ternary m : dchain (map leaves (ternary_chain m)).
Proof.
  induction m as [|m IH]; [reflexivity|].
  cbn [ternary_chain map]. destruct (ternary_chain_cons m) as [r E]. rewrite E in *. cbn [map] in *.
  apply dchain_cons. rewrite leaves_ternary_S.
  pose proof (leaves_ternary_pos m). repeat split; [lia| |exact IH].
  exists 3. lia.
Qed.

Lemma dchain_chain n m : dchain (map leaves (chain n m)).
Proof.
  induction n as [|n IH]; [apply dchain_ternary|].
  cbn [chain map]. destruct (chain_cons n m) as [r E]. rewrite E in *. cbn [map] in *.
  apply dchain_cons. rewrite leaves_full_S.
  pose proof (leaves_full_pos n m). repeat split; [lia| |exact IH].
  exists 2. lia.
Qed.

(** greedy decomposition of l along a chain of subtrees *)
Fixpoint gparts (l : Z) (ts : list stree) : list stree :=
  match ts with
  | [] => []
  | t :: r => repeat t (Z.to_nat (l / leaves t)) ++ gparts (l mod leaves t) r
  end.

Lemma gparts_leaves : forall ts l, 0 <= l -> dchain (map leaves ts) ->
  total_leaves (gparts l ts) = l.
Proof.
  unfold total_leaves. induction ts as [|t r IH]; intros l Hl H; [destruct H|].
  cbn [gparts]. pose proof (dchain_pos _ _ H) as Hp.
  rewrite map_app, zsum_app, map_repeat, zsum_repeat.
  destruct r as [|t2 r].
  - cbn [map dchain] in H. rewrite H. cbn [gparts map zsum fold_right]. rewrite Z.div_1_r. lia.
  - rewrite IH; [|lia|cbn [map] in *; apply dchain_inv in H; tauto].
    rewrite Z2Nat.id by (apply Z.div_pos; lia).
    pose proof (Z.div_mod l (leaves t)). lia.
Qed.

Lemma gparts_in : forall ts l, Forall (fun t => In t ts) (gparts l ts).
Proof.
  induction ts as [|t r IH]; intros l; [constructor|].
  cbn [gparts]. apply Forall_app. split.
  - apply Forall_forall. intros x Hx. apply repeat_spec in Hx. subst. left. reflexivity.
  - eapply Forall_impl; [|apply IH]. intros x Hx. right. exact Hx.
Qed.

Lemma gparts_step : forall ts l s b, 1 <= l ->
  dchain (map leaves ts) ->
  first_fit l (map splitters ts) (map leaves ts) = Some (s, b) ->
  1 <= b <= l /\
  exists t, In t ts /\ s = splitters t /\ b = leaves t /\
  Permutation (gparts l ts) (t :: gparts (l - b) ts).
Proof.
  induction ts as [|t r IH]; intros l s b Hl H Hf; [destruct H|].
  cbn [map first_fit] in Hf. pose proof (dchain_pos _ _ H) as Hp.
  destruct (leaves t >? l) eqn:E.
  - destruct r as [|t2 r]; [discriminate|].
    cbn [map] in H. apply dchain_inv in H. destruct H as (_ & _ & H).
    destruct (IH l s b Hl H Hf) as (Hb & t' & Ht' & Hs & Hbl & HP).
    split; [exact Hb|]. exists t'. repeat split; auto; [right; exact Ht'|].
    cbn [gparts] in *. rewrite (Z.div_small l), (Z.mod_small l) by lia.
    rewrite (Z.div_small (l - b) (leaves t)), (Z.mod_small (l - b) (leaves t)) by lia.
    cbn [Z.to_nat repeat app]. exact HP.
  - injection Hf as <- <-. split; [lia|]. exists t. repeat split; [left; reflexivity|].
    cbn [gparts].
    replace (l - leaves t) with (l + (-1) * leaves t) by lia.
    rewrite Z.div_add, Z.mod_add by lia.
    assert (Hq : 1 <= l / leaves t) by (apply Z.div_le_lower_bound; lia).
    replace (Z.to_nat (l / leaves t)) with (S (Z.to_nat (l / leaves t + -1))) by lia.
    reflexivity.
Qed.

Lemma first_fit_some : forall ts l, 1 <= l -> dchain (map leaves ts) ->
  exists s b, first_fit l (map splitters ts) (map leaves ts) = Some (s, b).
Proof.
  induction ts as [|t r IH]; intros l Hl H; [destruct H|].
  cbn [map first_fit]. destruct (leaves t >? l) eqn:E; [|eauto].
  destruct r as [|t2 r].
  - cbn [map dchain] in H. lia.
  - apply IH; [exact Hl|]. cbn [map] in *. apply dchain_inv in H. tauto.
Qed.

Lemma n_looping_loop_spec ts : dchain (map leaves ts) -> forall fuel l nb ns,
  0 <= l -> l <= Z.of_nat fuel ->
  n_looping_loop fuel l (map splitters ts) (map leaves ts) nb ns
  = Ok (nb + Z.of_nat (length (gparts l ts)), ns + total_splitters (gparts l ts)).
Proof.
  intros Hc. induction fuel as [|f IH]; intros l nb ns Hl Hf; cbn [n_looping_loop].
  - assert (l = 0) by lia. subst l. cbn [Z.eqb].
    assert (gparts 0 ts = []) as ->.
    { clear. induction ts as [|t r IHr]; [reflexivity|]. cbn [gparts].
      rewrite Zdiv_0_l, Zmod_0_l. cbn. exact IHr. }
    cbn. do 2 f_equal; lia.
  - destruct (Z.eqb_spec l 0) as [->|Hne].
    + assert (gparts 0 ts = []) as ->.
      { clear. induction ts as [|t r IHr]; [reflexivity|]. cbn [gparts].
        rewrite Zdiv_0_l, Zmod_0_l. cbn. exact IHr. }
      cbn. do 2 f_equal; lia.
    + destruct (first_fit_some ts l) as (s & b & Hfit); [lia|exact Hc|].
      rewrite Hfit.
      destruct (gparts_step ts l s b) as (Hb & t & Ht & -> & Hbl & HP); [lia|exact Hc|exact Hfit|].
      rewrite IH by lia. rewrite (Permutation_length HP).
      unfold total_splitters. rewrite (zsum_perm _ _ (Permutation_map splitters HP)).
      cbn [map length]. rewrite zsum_cons. do 2 f_equal; lia.
Qed.

Lemma n_looping_branches_spec n m l : 0 <= l ->
  compute_n_looping_branches l (compute_splitters_count n m) (compute_branches_count n m)
  = Ok (Z.of_nat (length (gparts l (chain n m))), total_splitters (gparts l (chain n m))).
Proof.
  intros Hl. unfold compute_n_looping_branches.
  rewrite splitters_count_spec, branches_count_spec.
  rewrite n_looping_loop_spec; [reflexivity|apply dchain_chain|lia|lia].
Qed.

(** optimality of the greedy decomposition *)
Fixpoint gcount (l : Z) (bs : list Z) : Z :=
  match bs with [] => 0 | b :: r => l / b + gcount (l mod b) r end.

Lemma gparts_length : forall ts l, 0 <= l -> dchain (map leaves ts) ->
  Z.of_nat (length (gparts l ts)) = gcount l (map leaves ts).
Proof.
  induction ts as [|t r IH]; intros l Hl H; [destruct H|].
  cbn [gparts map gcount]. pose proof (dchain_pos _ _ H) as Hp.
  rewrite app_length, repeat_length, Nat2Z.inj_add.
  rewrite Z2Nat.id by (apply Z.div_pos; lia). f_equal.
  destruct r as [|t2 r]; [reflexivity|].
  apply IH; [lia|]. cbn [map] in *. apply dchain_inv in H. tauto.
Qed.

Lemma gcount_nonneg : forall bs l, dchain bs -> 0 <= l -> 0 <= gcount l bs.
Proof.
  induction bs as [|b r IH]; intros l H Hl; [destruct H|].
  cbn [gcount]. pose proof (dchain_pos _ _ H).
  assert (0 <= l / b) by (apply Z.div_pos; lia).
  destruct r as [|c r]; [cbn; lia|].
  apply dchain_inv in H. destruct H as (? & ? & H).
  assert (0 <= l mod b) by (apply Z.mod_pos_bound; lia).
  specialize (IH (l mod b) H). lia.
Qed.

Lemma gcount_add b r w k : dchain (b :: r) -> r <> [] -> 0 <= w -> 0 <= k ->
  gcount w r + k <= gcount (w + k * b) r.
Proof.
  destruct r as [|c r]; [congruence|]. intros H _ Hw Hk.
  apply dchain_inv in H. destruct H as (Hb & [q Hq] & Hc).
  pose proof (dchain_pos _ _ Hc) as Hcp. cbn [gcount]. subst b.
  replace (w + k * (q * c)) with (w + (k * q) * c) by lia.
  rewrite Z.div_add, Z.mod_add by lia.
  assert (1 <= q) by nia. nia.
Qed.

Lemma coins_split : forall (b : Z) (r L : list Z),
  Forall (fun c => In c (b :: r)) L ->
  exists (k : nat) L', Forall (fun c => In c r) L' /\
    zsum L = Z.of_nat k * b + zsum L' /\ length L = (k + length L')%nat.
Proof.
  intros b r L H. induction H as [|c L Hc HL IH].
  - exists 0%nat, []. cbn. auto.
  - destruct IH as (k & L' & H1 & H2 & H3). destruct Hc as [<-|Hc].
    + exists (S k), L'. rewrite zsum_cons. cbn [length]. repeat split; auto; lia.
    + exists k, (c :: L'). rewrite !zsum_cons. cbn [length]. repeat split; auto; lia.
Qed.

Lemma gcount_minimal : forall bs, dchain bs -> forall L,
  Forall (fun c => In c bs) L -> gcount (zsum L) bs <= Z.of_nat (length L).
Proof.
  induction bs as [|b r IH]; intros H L HL; [destruct H|].
  destruct (coins_split b r L HL) as (k & L' & H1 & H2 & H3).
  pose proof (dchain_pos _ _ H) as Hb.
  destruct r as [|c r].
  - destruct L' as [|x L']; [|inversion H1; subst; contradiction].
    cbn [dchain] in H. subst b. cbn [gcount]. rewrite H2, H3. cbn. rewrite Z.div_1_r. lia.
  - assert (Hc : dchain (c :: r)) by (cbn [map] in *; apply dchain_inv in H; tauto).
    specialize (IH Hc L' H1).
    assert (Hpos : 0 <= zsum L').
    { clear -H1 Hc. induction H1 as [|x L' Hx HL IHL]; [cbn; lia|].
      rewrite zsum_cons. destruct Hx as [->|Hx].
      - pose proof (dchain_pos _ _ Hc). lia.
      - destruct (dchain_all_div _ _ _ Hc Hx). lia. }
    set (s := zsum L) in *. set (s' := zsum L') in *. clearbody s s'.
    cbn [gcount]. fold (gcount (s mod b) (c :: r)).
    change (s / b + gcount (s mod b) (c :: r) <= Z.of_nat (length L)).
    pose proof (gcount_add b (c :: r) (s mod b) (s / b - Z.of_nat k) H ltac:(congruence)) as G.
    assert (Hmod : 0 <= s mod b < b) by (apply Z.mod_pos_bound; lia).
    pose proof (Z.div_mod s b ltac:(lia)) as Hdm.
    assert (Hk : Z.of_nat k <= s / b) by (apply Z.div_le_lower_bound; nia).
    specialize (G ltac:(lia) ltac:(lia)).
    replace (s mod b + (s / b - Z.of_nat k) * b) with s' in G by nia.
    lia.
Qed.

Lemma gparts_minimal n m l ts : 0 <= l ->
  decomposition n m l ts -> (length (gparts l (chain n m)) <= length ts)%nat.
Proof.
  intros Hl [H1 H2].
  pose proof (gparts_length (chain n m) l Hl (dchain_chain n m)) as HG.
  pose proof (gcount_minimal _ (dchain_chain n m) (map leaves ts)) as HM.
  rewrite map_length in HM. unfold total_leaves in H2. rewrite H2 in HM.
  assert (gcount l (map leaves (chain n m)) <= Z.of_nat (length ts)).
  { apply HM. clear -H1. induction H1 as [|t ts Ht Hts IH]; constructor; [|exact IH].
    apply in_map, Ht. }
  lia.
Qed.

(** saved splitters as a sum of floors over the inner depths *)
Definition inner_floor (l : Z) (ts : list stree) : Z :=
  zsum (map (fun t => l / leaves t) (removelast ts)).

Lemma inner_floor_cons l t t2 r :
  inner_floor l (t :: t2 :: r) = l / leaves t + inner_floor l (t2 :: r).
Proof. reflexivity. Qed.

Fixpoint good_chain (ts : list stree) : Prop :=
  match ts with
  | [] => False
  | t :: r =>
      match r with
      | [] => t = SLeaf
      | t2 :: _ =>
          (exists k, 2 <= k /\ leaves t = k * leaves t2 /\ splitters t = 1 + k * splitters t2)
          /\ good_chain r
      end
  end.

Lemma good_ternary m : good_chain (ternary_chain m).
Proof.
  induction m as [|m IH]; [reflexivity|].
  cbn [ternary_chain]. destruct (ternary_chain_cons m) as [r E]. rewrite E in *.
  split; [|exact IH]. exists 3. rewrite leaves_ternary_S, splitters_ternary_S. lia.
Qed.
Lemma good_full n m : good_chain (chain n m).
Proof.
  induction n as [|n IH]; [apply good_ternary|].
  cbn [chain]. destruct (chain_cons n m) as [r E]. rewrite E in *.
  split; [|exact IH]. exists 2. rewrite leaves_full_S, splitters_full_S. lia.
Qed.

Lemma good_dchain : forall ts, good_chain ts -> dchain (map leaves ts).
Proof.
  induction ts as [|t r IH]; intros H; [destruct H|].
  destruct r as [|t2 r]; [cbn in *; subst; reflexivity|].
  destruct H as [(k & Hk & Hl & Hs) H]. specialize (IH H). cbn [map] in *.
  apply dchain_cons. pose proof (dchain_pos _ _ IH). repeat split; auto; [nia|].
  exists k. exact Hl.
Qed.

Lemma inner_floor_scale : forall ts t l q, good_chain (t :: ts) -> 0 <= q ->
  inner_floor (l + q * leaves t) (t :: ts)
  = inner_floor l (t :: ts) + q * inner_floor (leaves t) (t :: ts).
Proof.
  induction ts as [|t2 r IH]; intros t l q H Hq; [cbn; lia|].
  pose proof (dchain_pos _ _ (good_dchain _ H)) as Hp.
  destruct H as [(k & Hk & Hl & Hs) H].
  rewrite !inner_floor_cons. rewrite Z.div_add, Z.div_same by lia.
  rewrite Hl at 2. replace (l + q * (k * leaves t2)) with (l + (q * k) * leaves t2) by lia.
  rewrite IH by (auto; nia).
  pose proof (IH t2 0 k H ltac:(lia)) as E. rewrite Z.add_0_l, <- Hl in E.
  assert (Hz : inner_floor 0 (t2 :: r) = 0).
  { unfold inner_floor. clear. induction (removelast (t2 :: r)) as [|x y IHy]; [reflexivity|].
    cbn [map]. rewrite zsum_cons, IHy, Zdiv_0_l. reflexivity. }
  rewrite Hz in E. nia.
Qed.

Lemma inner_floor_full : forall ts t, good_chain (t :: ts) ->
  inner_floor (leaves t) (t :: ts) = splitters t.
Proof.
  induction ts as [|t2 r IH]; intros t H.
  - cbn [good_chain] in H. subst t. reflexivity.
  - pose proof (dchain_pos _ _ (good_dchain _ H)) as Hp.
    destruct H as [(k & Hk & Hl & Hs) H].
    rewrite inner_floor_cons, Z.div_same by lia.
    pose proof (inner_floor_scale r t2 0 k H ltac:(lia)) as E.
    rewrite Z.add_0_l, <- Hl, IH in E by exact H.
    assert (Hz : inner_floor 0 (t2 :: r) = 0).
    { unfold inner_floor. clear. induction (removelast (t2 :: r)) as [|x y IHy]; [reflexivity|].
      cbn [map]. rewrite zsum_cons, IHy, Zdiv_0_l. reflexivity. }
    lia.
Qed.

Lemma gparts_splitters : forall ts l, good_chain ts -> 0 <= l ->
  total_splitters (gparts l ts) = inner_floor l ts.
Proof.
  unfold total_splitters. induction ts as [|t r IH]; intros l H Hl; [destruct H|].
  cbn [gparts]. pose proof (dchain_pos _ _ (good_dchain _ H)) as Hp.
  rewrite map_app, zsum_app, map_repeat, zsum_repeat.
  rewrite Z2Nat.id by (apply Z.div_pos; lia).
  destruct r as [|t2 r].
  - cbn [good_chain] in H. subst t. cbn. lia.
  - pose proof (Z.mod_pos_bound l (leaves t) ltac:(lia)) as Hm.
    rewrite IH; [|destruct H; assumption|lia].
    pose proof (inner_floor_scale (t2 :: r) t (l mod leaves t) (l / leaves t) H
                  ltac:(apply Z.div_pos; lia)) as E.
    rewrite (inner_floor_full _ _ H) in E.
    replace (l mod leaves t + l / leaves t * leaves t) with l in E
      by (pose proof (Z.div_mod l (leaves t)); lia).
    rewrite E. rewrite (inner_floor_cons (l mod leaves t)).
    rewrite (Z.div_small (l mod leaves t)) by lia. lia.
Qed.

Lemma inner_floor_super ts a b : Forall (fun t => 1 <= leaves t) ts -> 0 <= a -> 0 <= b ->
  inner_floor a ts + inner_floor b ts <= inner_floor (a + b) ts.
Proof.
  intros H Ha Hb. unfold inner_floor.
  assert (H' : Forall (fun t => 1 <= leaves t) (removelast ts)).
  { clear -H. induction H as [|t ts Ht Hts IH]; [constructor|].
    destruct ts; [constructor|]. constructor; assumption. }
  induction H' as [|t r Ht Hr IH]; [cbn; lia|].
  cbn [map]. rewrite !zsum_cons.
  assert (a / leaves t + b / leaves t <= (a + b) / leaves t).
  { apply Z.div_le_lower_bound; [lia|].
    pose proof (Z.div_mod a (leaves t)). pose proof (Z.div_mod b (leaves t)).
    pose proof (Z.mod_pos_bound a (leaves t)). pose proof (Z.mod_pos_bound b (leaves t)). nia. }
  lia.
Qed.

Lemma chain_leaves_pos n m : Forall (fun t => 1 <= leaves t) (chain n m).
Proof.
  apply Forall_forall. intros t Ht.
  pose proof (dchain_chain n m) as H. destruct (chain_cons n m) as [r E]. rewrite E in *.
  destruct Ht as [<-|Ht]; [apply leaves_full_pos|].
  cbn [map] in H. destruct (dchain_all_div _ _ (leaves t) H) as [_ ?]; [apply in_map, Ht|assumption].
Qed.

(** Three disjoint proper parts of a tree never save all of its splitters. *)
Lemma three_parts_leave_a_splitter n m a b c :
  0 <= a < leaves (full n m) -> 0 <= b < leaves (full n m) -> 0 <= c < leaves (full n m) ->
  a + b + c = leaves (full n m) ->
  inner_floor a (chain n m) + inner_floor b (chain n m) + inner_floor c (chain n m)
  + 1 <= splitters (full n m).
Proof.
  intros Ha Hb Hc Hs.
  pose proof (good_full n m) as HG. pose proof (chain_leaves_pos n m) as HF.
  destruct (chain_cons n m) as [r E]. rewrite E in *.
  rewrite <- (inner_floor_full _ _ HG).
  destruct r as [|t2 r].
  - cbn [good_chain] in HG. rewrite HG in *. cbn in *. lia.
  - rewrite !inner_floor_cons. rewrite !Z.div_small by lia. rewrite Z.div_same by lia.
    assert (HF' : Forall (fun t => 1 <= leaves t) (t2 :: r)) by (inversion HF; assumption).
    pose proof (inner_floor_super (t2 :: r) a b HF' ltac:(lia) ltac:(lia)).
    pose proof (inner_floor_super (t2 :: r) (a + b) c HF' ltac:(lia) ltac:(lia)).
    rewrite Hs in *. lia.
Qed.

(** ** positivity and totality of the costs *)

Lemma loop_merge_cost_nonneg n x k : 0 <= loop_merge_cost n x k.
Proof.
  unfold loop_merge_cost. pose proof (merge_cost_nonneg k 1). pose proof (merge_cost_nonneg (k + 1) 1).
  destruct (Qgt_bool x (inject_Z conveyor_speed_limit)), (0 <? n)%nat; lia.
Qed.

Lemma extract_parts x c : 3 <= x -> 0 < c < x ->
  let d := x / Z.gcd x (x - c) in
  let e := (c * d) / x in
  1 <= d /\ 0 < e < d /\ x = d * Z.gcd x (x - c) /\ c = e * Z.gcd x (x - c).
Proof.
  intros Hx Hc. cbn zeta. set (g := Z.gcd x (x - c)).
  assert (Hgx : (g | x)) by apply Z.gcd_divide_l.
  assert (Hgc : (g | x - c)) by apply Z.gcd_divide_r.
  assert (Hg : 0 < g).
  { assert (0 <= g) by apply Z.gcd_nonneg.
    destruct (Z.eq_dec g 0) as [E|]; [|lia]. apply Z.gcd_eq_0_l in E. lia. }
  destruct Hgx as [d Hd], Hgc as [f Hf]. clearbody g.
  rewrite Hd. rewrite Z.div_mul by lia.
  assert (Hce : c = (d - f) * g) by lia.
  replace (c * d) with ((d - f) * (d * g)) by nia.
  assert (0 < d) by nia. rewrite Z.div_mul by nia.
  repeat split; try nia.
Qed.

Lemma extract_cost_pos x c : 3 <= x -> 0 < c < x ->
  exists r, extract_cost x c = Ok r /\ 1 <= r.
Proof.
  intros Hx Hc. unfold extract_cost.
  destruct (Z.leb_spec x 2); [lia|].
  destruct (Z.eqb_spec c 0); [lia|]. destruct (Z.eqb_spec c x); [lia|]. cbn [orb].
  destruct (zmem c conveyor_speeds); [exists 1; split; [reflexivity|lia]|].
  pose proof (extract_parts x c Hx Hc) as HP. cbn zeta in HP.
  set (d := x / Z.gcd x (x - c)) in *. set (e := (c * d) / x) in *.
  destruct HP as (Hd & He & _ & _). clearbody e. clearbody d.
  destruct (find_n_m_l_spec d Hd) as (nn & mm & l & s & Hf & Hp & Hl & Hs & _).
  pose proof (find_n_m_l_l_small d nn mm l s Hd Hf) as Hll.
  rewrite Hf. cbn [bind compute_tree_info].
  unfold compute_tree_info.
  rewrite !n_looping_branches_spec by lia. cbn [bind].
  eexists. split; [reflexivity|].
  rewrite !gparts_splitters by (try apply good_full; lia).
  pose proof (three_parts_leave_a_splitter nn mm l (d - e) e) as H3.
  rewrite leaves_full in H3. rewrite <- count_splits_spec in H3.
  rewrite Hp in H3. subst s.
  specialize (H3 ltac:(lia) ltac:(lia) ltac:(lia) ltac:(lia)).
  match goal with |- context [loop_merge_cost ?a ?b ?c] =>
    pose proof (loop_merge_cost_nonneg a b c) end.
  repeat match goal with |- context [merge_cost ?a ?b] =>
    let H := fresh in pose proof (merge_cost_nonneg a b) as H; generalize dependent (merge_cost a b); intros end.
  lia.
Qed.

Lemma divide_cost_pos x d : 2 <= x -> 2 <= d -> (d | x) ->
  exists r, divide_cost x d = Ok r /\ 1 <= r.
Proof.
  intros Hx Hd Hdx. apply Z.divide_pos_le in Hdx; [|lia]. unfold divide_cost.
  destruct (Z.leb_spec x 1); [lia|]. destruct (Z.eqb_spec d 0); [lia|].
  destruct (Z.eqb_spec d 1); [lia|].
  destruct ((d =? 2) || (d =? 3)); [exists 1; split; [reflexivity|lia]|].
  destruct (find_n_m_l_spec d ltac:(lia)) as (nn & mm & l & s & Hf & Hp & Hl & Hs & _).
  pose proof (find_n_m_l_l_small d nn mm l s ltac:(lia) Hf) as Hll.
  rewrite Hf. cbn [bind].
  pose proof (three_parts_leave_a_splitter nn mm l 0 d) as H3.
  rewrite leaves_full, <- count_splits_spec, Hp in H3. subst s.
  assert (Hz : forall a, 0 <= a -> 0 <= inner_floor a (chain nn mm)).
  { intros a Ha. rewrite <- gparts_splitters by (try apply good_full; lia).
    unfold total_splitters. generalize (gparts a (chain nn mm)).
    intros ts. induction ts as [|t r IH]; [cbn; lia|]. cbn [map]. rewrite zsum_cons.
    assert (0 <= splitters t).
    { clear. revert t. fix IHt 1. intros [|ts]; [cbn; lia|]. cbn [splitters].
      assert (0 <= fold_right (fun c acc => splitters c + acc) 0 ts); [|lia].
      induction ts as [|t ts IHts]; [cbn; lia|]. cbn [fold_right]. specialize (IHt t). lia. }
    lia. }
  destruct (Z.eqb_spec l 0) as [->|Hl0].
  - exists (count_splits nn mm). split; [reflexivity|].
    pose proof (count_splits_closed nn mm). pose proof (pow_pos_nat 2 nn ltac:(lia)). lia.
  - specialize (H3 ltac:(lia) ltac:(lia) ltac:(lia) ltac:(lia)).
    pose proof (Hz 0 ltac:(lia)) as Hz1. pose proof (Hz d ltac:(lia)) as Hz2.
    pose proof (Hz l ltac:(lia)) as Hz3.
    destruct (Z.eqb_spec l x); [lia|].
    destruct (Z.ltb_spec l 3); [eexists; split; [reflexivity|lia]|].
    cbn [compute_tree_info]. unfold compute_tree_info.
    rewrite n_looping_branches_spec by lia. cbn [bind].
    eexists. split; [reflexivity|].
    rewrite !gparts_splitters by (try apply good_full; lia).
    match goal with |- context [loop_merge_cost ?a ?b ?c] =>
      pose proof (loop_merge_cost_nonneg a b c) end. lia.
Qed.

(** ** the looped-back flow (C06) *)

Lemma Qgt_bool_true a b : Qgt_bool a b = true <-> (b < a)%Q.
Proof.
  unfold Qgt_bool. rewrite negb_true_iff. split.
  - intros H. apply Qnot_le_lt. intros Hle. apply Qle_bool_iff in Hle. congruence.
  - intros H. destruct (Qle_bool a b) eqn:E; [|reflexivity].
    apply Qle_bool_iff in E. exfalso. apply (Qlt_not_le _ _ H E).
Qed.

Lemma Qgt_bool_false a b : Qgt_bool a b = false <-> (a <= b)%Q.
Proof.
  unfold Qgt_bool. rewrite negb_false_iff. apply Qle_bool_iff.
Qed.

Lemma inject_Z_div_le a b c : 0 <= a -> 0 < b -> b <= c ->
  (inject_Z a / inject_Z c <= inject_Z a / inject_Z b)%Q.
Proof.
  intros Ha Hb Hc.
  assert (Hb' : (0 < inject_Z b)%Q) by (change 0%Q with (inject_Z 0); rewrite <- Zlt_Qlt; lia).
  assert (Hc' : (0 < inject_Z c)%Q) by (change 0%Q with (inject_Z 0); rewrite <- Zlt_Qlt; lia).
  apply Qle_shift_div_l; [exact Hb'|].
  setoid_replace (inject_Z a / inject_Z c * inject_Z b)%Q
    with (inject_Z (a * b) / inject_Z c)%Q
    by (rewrite inject_Z_mult; field; intros E; rewrite E in Hc'; apply (Qlt_irrefl _ Hc')).
  apply Qle_shift_div_r; [exact Hc'|].
  rewrite <- inject_Z_mult. rewrite <- Zle_Qle. nia.
Qed.

Lemma gparts_small : forall ts l, good_chain ts -> 0 <= l ->
  Forall (fun t => l < leaves t) (removelast ts) -> gparts l ts = repeat SLeaf (Z.to_nat l).
Proof.
  induction ts as [|t r IH]; intros l HG Hl HF; [destruct HG|].
  destruct r as [|t2 r].
  - cbn [good_chain] in HG. subst t. cbn [gparts leaves].
    rewrite Z.div_1_r, app_nil_r. reflexivity.
  - cbn [removelast] in HF. inversion HF as [|? ? Ht HF']. subst.
    destruct HG as [_ HG]. cbn [gparts].
    rewrite Z.div_small, Z.mod_small by lia. cbn [Z.to_nat repeat app]. apply IH; assumption.
Qed.

Lemma good_inner_2 : forall ts, good_chain ts -> Forall (fun t => 2 <= leaves t) (removelast ts).
Proof.
  induction ts as [|t r IH]; intros HG; [destruct HG|].
  destruct r as [|t2 r]; [constructor|].
  pose proof (good_dchain _ HG) as HD. cbn [map] in HD.
  apply dchain_inv in HD. destruct HD as (_ & _ & HD). apply dchain_pos in HD.
  destruct HG as [(k & Hk & Hl & Hs) HG]. cbn [removelast]. constructor; [nia|].
  apply IH, HG.
Qed.

Lemma inner_3_ternary m : Forall (fun t => 3 <= leaves t) (removelast (ternary_chain m)).
Proof.
  induction m as [|m IH]; [constructor|]. cbn [ternary_chain].
  pose proof (leaves_ternary_S m). pose proof (leaves_ternary_pos m).
  destruct (ternary_chain_cons m) as [r E]. rewrite E in *. cbn [removelast] in *.
  constructor; [lia|exact IH].
Qed.

Lemma inner_3_full n m : Forall (fun t => 3 <= leaves t) (removelast (chain n (S m))).
Proof.
  induction n as [|n IH]; [apply inner_3_ternary|]. cbn [chain].
  assert (3 <= leaves (full (S n) (S m))).
  { rewrite leaves_full, (Nat2Z.inj_succ m), Z.pow_succ_r by lia.
    pose proof (pow_pos_nat 2 (S n) ltac:(lia)). pose proof (pow_pos_nat 3 m ltac:(lia)). nia. }
  destruct (chain_cons n (S m)) as [r E]. rewrite E in *. cbn [removelast] in *.
  constructor; [lia|exact IH].
Qed.

(** l = 2 never occurs with a purely binary tree *)
Lemma find_n_m_l_two X n m s : 4 <= X -> find_n_m_l X = Ok (n, m, 2, s) -> (1 <= m)%nat.
Proof.
  intros HX H. destruct (find_n_m_l_spec X ltac:(lia)) as (n0 & m0 & l0 & s0 & H0 & Hp & Hl & Hs & Hmin).
  rewrite H in H0. injection H0 as <- <- <- <-.
  destruct m as [|m]; [exfalso|lia].
  change (3 ^ Z.of_nat 0) with 1 in Hp.
  pose proof (count_splits_closed n 0) as Hc. change (3 ^ Z.of_nat 0) with 1 in Hc.
  destruct n as [|[|[|n]]];
    [change (2 ^ Z.of_nat 0) with 1 in Hp; lia
    |change (2 ^ Z.of_nat 1) with 2 in Hp; lia
    |change (2 ^ Z.of_nat 2) with 4 in Hp; lia|].
  rewrite !Nat2Z.inj_succ, !Z.pow_succ_r in * by lia.
  pose proof (pow_pos_nat 2 n ltac:(lia)).
  specialize (Hmin n 2%nat). unfold reaches in Hmin.
  pose proof (count_splits_closed n 2) as Hc2.
  change (3 ^ Z.of_nat 2) with 9 in *. lia.
Qed.

(** what the cost functions should charge for a tree whose input belt carries [flow] *)
Definition charge (n : nat) (flow : Q) (n_splitters n_saved n_branches : Z) : Z :=
  n_splitters - n_saved + loop_merge_cost n flow n_branches.

Lemma divide_cost_exact x d n m l s nb ns :
  2 <= x -> 4 <= d -> (d | x) -> find_n_m_l d = Ok (n, m, l, s) -> 0 < l ->
  compute_n_looping_branches l (compute_splitters_count n m) (compute_branches_count n m)
  = Ok (nb, ns) ->
  (inject_Z x + inject_Z (l * x) / inject_Z d <= inject_Z conveyor_speed_limit)%Q ->
  divide_cost x d = Ok (charge n (inject_Z x + inject_Z (l * x) / inject_Z d) s ns nb).
Proof.
  intros Hx Hd Hdx Hf Hl Hb Hlim.
  destruct (find_n_m_l_spec d ltac:(lia)) as (n0 & m0 & l0 & s0 & H0 & Hp & _ & Hs & _).
  rewrite Hf in H0. injection H0 as <- <- <- <-.
  pose proof (find_n_m_l_l_small d n m l s ltac:(lia) Hf) as Hll.
  apply Z.divide_pos_le in Hdx; [|lia].
  unfold divide_cost. destruct (Z.leb_spec x 1); [lia|]. destruct (Z.eqb_spec d 0); [lia|].
  destruct (Z.eqb_spec d 1); [lia|]. destruct (Z.eqb_spec d 2); [lia|].
  destruct (Z.eqb_spec d 3); [lia|]. cbn [orb]. rewrite Hf. cbn [bind].
  destruct (Z.eqb_spec l 0); [lia|]. destruct (Z.eqb_spec l x); [lia|].
  unfold charge, loop_merge_cost.
  rewrite (proj2 (Qgt_bool_false _ _) Hlim).
  destruct (Z.ltb_spec l 3).
  - rewrite n_looping_branches_spec in Hb by lia.
    assert (Hg : gparts l (chain n m) = repeat SLeaf (Z.to_nat l)).
    { apply gparts_small; [apply good_full|lia|].
      assert (l = 1 \/ l = 2) as [-> | ->] by lia.
      - eapply Forall_impl; [|apply good_inner_2, good_full]. cbn. intros; lia.
      - destruct m as [|m]; [apply find_n_m_l_two in Hf; lia|].
        eapply Forall_impl; [|apply inner_3_full]. cbn. intros; lia. }
    rewrite Hg in Hb. rewrite repeat_length in Hb.
    unfold total_splitters in Hb. rewrite map_repeat, zsum_repeat in Hb. cbn [splitters] in Hb.
    injection Hb as <- <-. rewrite merge_cost_closed.
    f_equal. destruct (Z.leb_spec (Z.of_nat (Z.to_nat l) + 1) 1); [lia|].
    assert (l = 1 \/ l = 2) as [-> | ->] by lia; lia.
  - unfold compute_tree_info. rewrite Hb. cbn [bind].
    unfold loop_merge_cost.
    rewrite (proj2 (Qgt_bool_false _ _)); [reflexivity|].
    eapply Qle_trans; [|exact Hlim]. apply Qplus_le_r.
    apply inject_Z_div_le; lia.
Qed.

Lemma divide_cost_inexact :
  exists (x d : Z) (n m : nat) (l s nb ns : Z),
    2 <= x /\ 4 <= d /\ (d | x) /\ find_n_m_l d = Ok (n, m, l, s) /\ 0 < l /\
    compute_n_looping_branches l (compute_splitters_count n m) (compute_branches_count n m)
    = Ok (nb, ns) /\
    divide_cost x d <> Ok (charge n (inject_Z x + inject_Z (l * x) / inject_Z d) s ns nb).
Proof.
  exists 910, 13, 1%nat, 2%nat, 5, 9, 3, 1.
  repeat split; try (vm_compute; congruence).
  exists 70. reflexivity.
Qed.

Lemma extract_cost_exact x c n m l s nl sl no so ne se :
  3 <= x -> 0 < c < x -> zmem c conveyor_speeds = false ->
  let g := Z.gcd x (x - c) in let d := x / g in
  find_n_m_l d = Ok (n, m, l, s) ->
  let info l := compute_n_looping_branches l (compute_splitters_count n m)
                  (compute_branches_count n m) in
  info l = Ok (nl, sl) -> info ((x - c) / g) = Ok (no, so) -> info (c / g) = Ok (ne, se) ->
  (inject_Z (x + l * g) <= inject_Z conveyor_speed_limit)%Q ->
  extract_cost x c
  = Ok (charge n (inject_Z (x + l * g)) s (sl + so + se) nl
        + merge_cost no 1 + merge_cost ne 1).
Proof.
  intros Hx Hc Hm. cbn zeta. intros Hf H1 H2 H3 Hlim.
  pose proof (extract_parts x c Hx Hc) as HP. cbn zeta in HP.
  unfold extract_cost. destruct (Z.leb_spec x 2); [lia|].
  destruct (Z.eqb_spec c 0); [lia|]. destruct (Z.eqb_spec c x); [lia|]. cbn [orb].
  rewrite Hm. rewrite Hf. cbn [bind]. unfold compute_tree_info.
  set (g := Z.gcd x (x - c)) in *. set (d := x / g) in *. set (e := c * d / x) in *.
  destruct HP as (Hd & He & Hxd & Hce).
  assert (Hg : 0 < g) by nia.
  replace ((x - c) / g) with (d - e) in H2
    by (replace (x - c) with ((d - e) * g) by lia; rewrite Z.div_mul by lia; reflexivity).
  replace (c / g) with e in H3 by (rewrite Hce at 1; rewrite Z.div_mul by lia; reflexivity).
  rewrite H1. cbn [bind]. rewrite H2. cbn [bind]. rewrite H3. cbn [bind].
  destruct (find_n_m_l_spec d Hd) as (nn0 & mm0 & l0 & s0 & H0 & Hp & Hl0 & Hs & _).
  rewrite Hf in H0. injection H0 as <- <- <- <-.
  unfold charge, loop_merge_cost.
  rewrite (proj2 (Qgt_bool_false _ _) Hlim).
  rewrite (proj2 (Qgt_bool_false _ _)); [f_equal; lia|].
  eapply Qle_trans; [|exact Hlim].
  rewrite inject_Z_plus. apply Qplus_le_r. rewrite Hp.
  assert (Hpos : (0 < inject_Z (d + l))%Q) by (change 0%Q with (inject_Z 0); rewrite <- Zlt_Qlt; lia).
  setoid_replace (inject_Z l * (inject_Z x / inject_Z (d + l)))%Q
    with (inject_Z (l * x) / inject_Z (d + l))%Q
    by (rewrite inject_Z_mult; field; intros E; rewrite E in Hpos; apply (Qlt_irrefl _ Hpos)).
  apply Qle_shift_div_r; [exact Hpos|].
  rewrite <- inject_Z_mult. rewrite <- Zle_Qle. nia.
Qed.

Lemma extract_cost_inexact :
  exists (x c : Z) (n m : nat) (l s nl sl no so ne se : Z),
  3 <= x /\ 0 < c < x /\ zmem c conveyor_speeds = false /\
  let g := Z.gcd x (x - c) in let d := x / g in
  let info l := compute_n_looping_branches l (compute_splitters_count n m)
                  (compute_branches_count n m) in
  find_n_m_l d = Ok (n, m, l, s) /\
  info l = Ok (nl, sl) /\ info ((x - c) / g) = Ok (no, so) /\ info (c / g) = Ok (ne, se) /\
  extract_cost x c
  <> Ok (charge n (inject_Z (x + l * g)) s (sl + so + se) nl
         + merge_cost no 1 + merge_cost ne 1).
Proof.
  exists 1010, 202, 1%nat, 1%nat, 1, 3, 1, 0, 2, 1, 1, 0.
  repeat split; try (vm_compute; congruence).
Qed.

Lemma c01_merge_cost_minimal_lemma : forall n t, 0 <= n -> 1 <= t ->
  exists k, merge_cost n t = Z.of_nat k /\
    (exists b, merged k n b /\ b <= t) /\
    (forall k' b, merged k' n b -> b <= t -> (k <= k')%nat).
Proof.
  intros n t Hn Ht. exists (Z.to_nat (merge_cost n t)).
  assert (E : merge_cost n t = Z.of_nat (Z.to_nat (merge_cost n t)))
    by (rewrite Z2Nat.id; [reflexivity|apply merge_cost_nonneg]).
  split; [exact E|]. split; [exact (merged_achieve _ n t Ht E)|].
  intros k' b H Hb. pose proof (merge_cost_minimal n t k' b Hn H Hb). lia.
Qed.

Lemma c02_find_n_m_l_optimal_lemma : forall X, 1 <= X ->
  exists n m l s, find_n_m_l X = Ok (n, m, l, s) /\
    leaves (full n m) = X + l /\ 0 <= l /\ s = splitters (full n m) /\
    forall n' m', X <= leaves (full n' m') -> s <= splitters (full n' m').
Proof.
  intros X HX. destruct (find_n_m_l_spec X HX) as (n & m & l & s & H1 & H2 & H3 & H4 & H5).
  exists n, m, l, s. rewrite leaves_full, <- count_splits_spec. repeat split; auto.
  intros n' m' H. rewrite leaves_full in H. rewrite <- count_splits_spec. exact (H5 n' m' H).
Qed.

Lemma c03_divide_never_free_lemma : forall x d n m l s, 2 <= x -> 2 <= d -> (d | x) ->
  find_n_m_l d = Ok (n, m, l, s) -> l <> x.
Proof.
  intros x d n m l s Hx Hd Hdx Hf. apply Z.divide_pos_le in Hdx; [|lia].
  apply find_n_m_l_l_small in Hf; lia.
Qed.

Lemma c04_greedy_branches_lemma : forall n m l, 0 <= l ->
  exists ts, decomposition n m l ts /\
    compute_n_looping_branches l (fst (compute_tree_info n m)) (snd (compute_tree_info n m))
    = Ok (Z.of_nat (length ts), total_splitters ts) /\
    (forall ts', decomposition n m l ts' -> (length ts <= length ts')%nat) /\
    total_splitters ts = zsum (map (fun t => l / leaves t) (removelast (chain n m))).
Proof.
  intros n m l Hl. exists (gparts l (chain n m)).
  split; [split; [apply gparts_in|apply gparts_leaves; [exact Hl|apply dchain_chain]]|].
  split; [exact (n_looping_branches_spec n m l Hl)|].
  split; [intros ts' H; exact (gparts_minimal n m l ts' Hl H)|].
  exact (gparts_splitters _ _ (good_full n m) Hl).
Qed.

Lemma c04_tree_info_lemma : forall n m,
  compute_tree_info n m = (map splitters (chain n m), map leaves (chain n m)).
Proof.
  intros n m. unfold compute_tree_info.
  rewrite splitters_count_spec, branches_count_spec. reflexivity.
Qed.

Lemma c05_merge_cost_positive_lemma : forall k, 2 <= k -> 1 <= merge_cost k 1.
Proof. intros k H. apply merge_cost_pos. lia. Qed.
