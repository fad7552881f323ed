(** compute_looping_branches (src/cost.py:61-86), level by level. *)
From Verif Require Import Base BaseLemmas Cost CostSpec CostProofs ExpandSpec.
Open Scope Z_scope.

Lemma slots_pos n k : 1 <= slots n k.
Proof. unfold slots. pose proof (pow_pos_nat 2 (Nat.min k n) ltac:(lia)). pose proof (pow_pos_nat 3 (k - n) ltac:(lia)). nia. Qed.
Lemma under_pos n m k : 1 <= under n m k.
Proof. unfold under. pose proof (pow_pos_nat 2 (n - k) ltac:(lia)). pose proof (pow_pos_nat 3 (m - (k - n)) ltac:(lia)). nia. Qed.
Lemma radix_pos n k : 2 <= radix n k <= 3.
Proof. unfold radix. destruct (k <=? n)%nat; lia. Qed.
Lemma slots_S n k : slots n (S k) = radix n (S k) * slots n k.
Proof.
  unfold slots, radix. destruct (Nat.leb_spec (S k) n) as [H|H].
  - rewrite !Nat.min_l by lia. replace (S k - n)%nat with O by lia. replace (k - n)%nat with O by lia.
    rewrite Nat2Z.inj_succ, Z.pow_succ_r by lia. ring.
  - rewrite !Nat.min_r by lia. replace (S k - n)%nat with (S (k - n)) by lia.
    rewrite Nat2Z.inj_succ, Z.pow_succ_r by lia. ring.
Qed.
Lemma under_S n m k : (k < n + m)%nat -> under n m k = radix n (S k) * under n m (S k).
Proof.
  intros L. unfold under, radix. destruct (Nat.leb_spec (S k) n) as [H|H].
  - replace (n - k)%nat with (S (n - S k)) by lia. replace (S k - n)%nat with O by lia. replace (k - n)%nat with O by lia.
    rewrite Nat2Z.inj_succ, Z.pow_succ_r by lia. ring.
  - replace (n - k)%nat with O by lia. replace (n - S k)%nat with O by lia.
    replace (m - (k - n))%nat with (S (m - (S k - n))) by lia. rewrite Nat2Z.inj_succ, Z.pow_succ_r by lia. ring.
Qed.
Lemma slots_under n m k : (k <= n + m)%nat -> slots n k * under n m k = 2 ^ Z.of_nat n * 3 ^ Z.of_nat m.
Proof.
  induction k as [|k IH]; intros H.
  - unfold slots, under. rewrite Nat.min_0_l. change (0 - n)%nat with O. rewrite !Nat.sub_0_r. change (2 ^ Z.of_nat 0) with 1. change (3 ^ Z.of_nat 0) with 1. ring.
  - rewrite <- IH by lia. rewrite slots_S, (under_S n m k) by lia. ring.
Qed.
Lemma under_bottom n m : under n m (n + m) = 1.
Proof. unfold under. replace (n - (n + m))%nat with O by lia. replace (m - (n + m - n))%nat with O by lia. reflexivity. Qed.
Lemma slots_0 n : slots n 0 = 1.
Proof. reflexivity. Qed.

Lemma seq_from_1 {A} (f : nat -> A) k : map f (seq 1 k) = map (fun i => f (S i)) (seq 0 k).
Proof. rewrite <- seq_shift, map_map. reflexivity. Qed.
Lemma leaves_chain n m : map leaves (chain n m) = map (under n m) (seq 0 (S (n + m))).
Proof.
  induction n as [|n IH].
  - cbn [chain Nat.add]. induction m as [|m IH]; [reflexivity|]. change (ternary_chain (S m)) with (ternary (S m) :: ternary_chain m).
    change (seq 0 (S (S m))) with (O :: seq 1 (S m)). cbn [map]. rewrite IH, leaves_ternary, (seq_from_1 (under 0 (S m))). f_equal.
    + unfold under. cbn [Nat.sub]. change (2 ^ Z.of_nat 0) with 1. lia.
    + apply map_ext. intros k. unfold under. rewrite !Nat.sub_0_r. reflexivity.
  - change (chain (S n) m) with (full (S n) m :: chain n m). change (seq 0 (S (S n + m))) with (O :: seq 1 (S (n + m))).
    cbn [map]. rewrite IH, leaves_full, (seq_from_1 (under (S n) m)). f_equal.
    + unfold under. cbn [Nat.sub]. rewrite Nat.sub_0_r. reflexivity.
Qed.
Lemma branches_count_levels n m : compute_branches_count n m = map (under n m) (seq 0 (S (n + m))).
Proof. rewrite branches_count_spec. apply leaves_chain. Qed.

Lemma key_eqb_eq a b : key_eqb a b = true <-> a = b.
Proof. destruct a as [a1 a2], b as [b1 b2]. unfold key_eqb. cbn. rewrite andb_true_iff, !Nat.eqb_eq. split; [intros [-> ->]; reflexivity|injection 1; auto]. Qed.
Lemma key_eqb_refl a : key_eqb a a = true.
Proof. apply key_eqb_eq. reflexivity. Qed.
Lemma key_eqb_neq a b : a <> b -> key_eqb a b = false.
Proof. intros H. destruct (key_eqb a b) eqn:E; [apply key_eqb_eq in E; contradiction|reflexivity]. Qed.
Lemma lb_get_set d k v k' : lb_get (lb_set d k v) k' = if key_eqb k' k then v else lb_get d k'.
Proof.
  induction d as [|e d IH]; cbn [lb_set].
  - unfold lb_get. cbn [find]. cbn [fst]. destruct (key_eqb k' k); reflexivity.
  - destruct (key_eqb k (fst e)) eqn:E.
    + apply key_eqb_eq in E. unfold lb_get. cbn [find fst]. rewrite <- E. destruct (key_eqb k' k); reflexivity.
    + unfold lb_get in *. cbn [find]. destruct (key_eqb k' (fst e)) eqn:E'; [|exact IH].
      apply key_eqb_eq in E'. subst k'. destruct (key_eqb (fst e) k) eqn:E2; [|reflexivity].
      apply key_eqb_eq in E2. rewrite E2, key_eqb_refl in E. discriminate.
Qed.

(** pairs of counters *)
Definition plus2 (p : Z * Z) (a b : Z) : Z * Z := (fst p + a, snd p + b).
Lemma plus2_0 p : plus2 p 0 0 = p.
Proof. destruct p. unfold plus2. cbn. f_equal; lia. Qed.
Lemma plus2_plus2 p a b c d : plus2 (plus2 p a b) c d = plus2 p (a + c) (b + d).
Proof. unfold plus2. cbn. f_equal; lia. Qed.

Lemma ignore_bin_get : forall c cur ta d, exists d', lb_ignore_bin c cur ta d = (ta * 2 ^ Z.of_nat c, d') /\
  forall a b, lb_get d' (a, b) =
    plus2 (lb_get d (a, b)) 0 (if (b =? 0)%nat && (cur <? a)%nat && (a <=? cur + c)%nat then ta * 2 ^ Z.of_nat (a - cur) else 0).
Proof.
  induction c as [|c IH]; intros cur ta d.
  - exists d. split; [cbn; f_equal; lia|]. intros a b. replace ((b =? 0)%nat && (cur <? a)%nat && (a <=? cur + 0)%nat) with false; [symmetry; apply plus2_0|].
    symmetry. apply andb_false_iff. destruct (Nat.ltb_spec cur a); [right; apply Nat.leb_gt; lia|left; apply andb_false_r].
  - cbn [lb_ignore_bin]. destruct (IH (S cur) (ta * 2) (lb_set d (S cur, 0%nat) (fst (lb_get d (S cur, 0%nat)), snd (lb_get d (S cur, 0%nat)) + ta * 2)))
      as (d' & E & G). exists d'. split.
    + rewrite E. f_equal. rewrite Nat2Z.inj_succ, Z.pow_succ_r by lia. ring.
    + intros a b. rewrite G, lb_get_set.
      destruct (key_eqb (a, b) (S cur, 0%nat)) eqn:K.
      * apply key_eqb_eq in K. injection K as -> ->. cbn [Nat.eqb andb]. rewrite (proj2 (Nat.ltb_ge (S cur) (S cur))) by lia. cbn [andb].
        rewrite (proj2 (Nat.ltb_lt cur (S cur))) by lia. rewrite (proj2 (Nat.leb_le (S cur) (cur + S c))) by lia. cbn [andb].
        rewrite plus2_0. unfold plus2. cbn [fst snd]. replace (S cur - cur)%nat with 1%nat by lia. change (2 ^ Z.of_nat 1) with 2. f_equal. lia.
      * f_equal. destruct (Nat.eqb_spec b 0) as [->|]; [|reflexivity]. cbn [andb].
        assert (a <> S cur) by (intros ->; rewrite key_eqb_refl in K; discriminate).
        replace (S cur + c)%nat with (cur + S c)%nat by lia.
        destruct (Nat.ltb_spec (S cur) a), (Nat.ltb_spec cur a); try lia; cbn [andb]; [|reflexivity].
        destruct (a <=? cur + S c)%nat; [|reflexivity]. replace (a - cur)%nat with (S (a - S cur)) by lia.
        rewrite Nat2Z.inj_succ, Z.pow_succ_r by lia. ring.
Qed.
Lemma ignore_ter_get : forall c n cur ta d a b, 
  lb_get (lb_ignore_ter c n cur ta d) (a, b) =
    plus2 (lb_get d (a, b)) 0 (if (a =? n)%nat && (cur <? b)%nat && (b <=? cur + c)%nat then ta * 3 ^ Z.of_nat (b - cur) else 0).
Proof.
  induction c as [|c IH]; intros n cur ta d a b; cbn [lb_ignore_ter].
  - replace ((a =? n)%nat && (cur <? b)%nat && (b <=? cur + 0)%nat) with false; [symmetry; apply plus2_0|].
    symmetry. apply andb_false_iff. destruct (Nat.ltb_spec cur b); [right; apply Nat.leb_gt; lia|left; apply andb_false_r].
  - rewrite IH, lb_get_set. destruct (key_eqb (a, b) (n, S cur)) eqn:K.
    + apply key_eqb_eq in K. injection K as -> ->. rewrite Nat.eqb_refl. rewrite (proj2 (Nat.ltb_ge (S cur) (S cur))) by lia. cbn [andb].
      rewrite (proj2 (Nat.ltb_lt cur (S cur))) by lia. rewrite (proj2 (Nat.leb_le (S cur) (cur + S c))) by lia. cbn [andb].
      rewrite plus2_0. unfold plus2. cbn [fst snd]. replace (S cur - cur)%nat with 1%nat by lia. change (3 ^ Z.of_nat 1) with 3. f_equal. lia.
    + f_equal. destruct (Nat.eqb_spec a n) as [->|]; [|reflexivity]. cbn [andb].
      assert (b <> S cur) by (intros ->; rewrite key_eqb_refl in K; discriminate).
      replace (S cur + c)%nat with (cur + S c)%nat by lia.
      destruct (Nat.ltb_spec (S cur) b), (Nat.ltb_spec cur b); try lia; cbn [andb]; [|reflexivity].
      destruct (b <=? cur + S c)%nat; [|reflexivity]. replace (b - cur)%nat with (S (b - S cur)) by lia.
      rewrite Nat2Z.inj_succ, Z.pow_succ_r by lia. ring.
Qed.

Lemma descend_spec n m l : 1 <= l -> forall j i, (i + j = n + m)%nat -> (forall i', (i' < i)%nat -> l < under n m i') ->
  exists k, (i <= k <= n + m)%nat /\ (forall i', (i' < k)%nat -> l < under n m i') /\ under n m k <= l /\
    lb_descend n l (map (under n m) (seq i (S j))) (Nat.min i n) (i - n) = Some (Nat.min k n, (k - n)%nat, under n m k).
Proof.
  intros Hl. induction j as [|j IH]; intros i Hi Hlt.
  - exists i. assert (i = n + m)%nat by lia. subst i. rewrite under_bottom. split; [lia|]. split; [exact Hlt|]. split; [exact Hl|].
    cbn [seq map lb_descend]. rewrite under_bottom. destruct (1 >? l) eqn:E; [lia|]. reflexivity.
  - change (seq i (S (S j))) with (i :: seq (S i) (S j)). cbn [map lb_descend]. destruct (under n m i >? l) eqn:E.
    + destruct (IH (S i)) as (k & Hk & Hk2 & Hk3 & Ek); [lia| |].
      { intros i' Hi'. destruct (Nat.eq_dec i' i) as [->|]; [lia|apply Hlt; lia]. }
      exists k. split; [lia|]. split; [exact Hk2|]. split; [exact Hk3|]. rewrite <- Ek.
      destruct (Nat.ltb_spec (Nat.min i n) n).
      * rewrite !Nat.min_l by lia. replace (i - n)%nat with (S i - n)%nat by lia. reflexivity.
      * rewrite !Nat.min_r by lia. replace (S i - n)%nat with (S (i - n)) by lia. reflexivity.
    + exists i. split; [lia|]. split; [exact Hlt|]. split; [lia|]. reflexivity.
Qed.

(** what [l] leaves at level [k]: subtrees cut there, slots under earlier cuts *)
Definition cut_at (n m : nat) (l : Z) (k : nat) : Z :=
  match k with O => l / under n m 0 | S k' => l / under n m k - radix n k * (l / under n m k') end.
Definition under_cut (n m : nat) (l : Z) (k : nat) : Z :=
  match k with O => 0 | S k' => radix n k * (l / under n m k') end.

Lemma div_sub_mult l b q : 0 < b -> (l - q * b) / b = l / b - q.
Proof. intros H. replace (l - q * b) with (l + (- q) * b) by ring. rewrite Z.div_add by lia. lia. Qed.
Lemma under_ratio n m i k : (i <= k <= n + m)%nat -> exists q, under n m i = q * under n m k.
Proof.
  intros [H1 H2]. induction H1 as [|k H1 IH]; [exists 1; lia|]. destruct IH as (q & E); [lia|].
  exists (q * radix n (S k)). rewrite E, (under_S n m k) by lia. ring.
Qed.
(** the numbers recorded for one cut at level [i] *)
Lemma cut_step n m l i k : 0 <= l -> (i <= n + m)%nat -> (k <= n + m)%nat -> (forall i', (i' < i)%nat -> l < under n m i') -> under n m i <= l ->
  cut_at n m l k = cut_at n m (l - under n m i) k + (if (k =? i)%nat then 1 else 0) /\
  under_cut n m l k = under_cut n m (l - under n m i) k + (if (i <? k)%nat then under n m i / under n m k else 0).
Proof.
  intros Hl Hi Hk Hlt Hle. pose proof (under_pos n m i) as Pi.
  assert (D : forall j, (j <= n + m)%nat -> (l - under n m i) / under n m j = l / under n m j - (if (i <=? j)%nat then under n m i / under n m j else 0)).
  { intros j Hj. pose proof (under_pos n m j). destruct (Nat.leb_spec i j) as [L|L].
    - destruct (under_ratio n m i j) as (q & E); [lia|]. rewrite E, div_sub_mult, Z.div_mul by lia. reflexivity.
    - specialize (Hlt j L). rewrite !Z.div_small by lia. lia. }
  destruct k as [|k]; cbn [cut_at under_cut].
  - rewrite D by lia. destruct i as [|i].
    + cbn [Nat.leb Nat.eqb Nat.ltb]. rewrite Z.div_same by lia. lia.
    + cbn. lia.
  - rewrite !D by lia. pose proof (under_pos n m (S k)). pose proof (under_pos n m k).
    destruct (Nat.lt_trichotomy (S k) i) as [L|[<-|L]].
    + rewrite (proj2 (Nat.leb_gt i (S k))), (proj2 (Nat.leb_gt i k)), (proj2 (Nat.eqb_neq (S k) i)), (proj2 (Nat.ltb_ge i (S k))) by lia. lia.
    + rewrite (proj2 (Nat.leb_le (S k) (S k))), (proj2 (Nat.leb_gt (S k) k)), Nat.eqb_refl, (proj2 (Nat.ltb_ge (S k) (S k))), Z.div_same by lia. lia.
    + rewrite (proj2 (Nat.leb_le i (S k))), (proj2 (Nat.leb_le i k)), (proj2 (Nat.eqb_neq (S k) i)), (proj2 (Nat.ltb_lt i (S k))) by lia.
      destruct (under_ratio n m i k) as (q & E); [lia|].
      assert (Q1 : under n m i / under n m k = q) by (rewrite E; apply Z.div_mul; lia).
      assert (Q2 : under n m i / under n m (S k) = q * radix n (S k)).
      { rewrite E, (under_S n m k) by lia. replace (q * (radix n (S k) * under n m (S k))) with (q * radix n (S k) * under n m (S k)) by ring. apply Z.div_mul. lia. }
      rewrite Q1, Q2. lia.
Qed.

Lemma level_key_inj n k k' : level_key n k = level_key n k' -> k = k'.
Proof. unfold level_key. intros E. injection E as E1 E2. lia. Qed.
Lemma under_div n m i k : (i <= k <= n + m)%nat -> under n m i / under n m k = 2 ^ Z.of_nat (Nat.min k n - Nat.min i n) * 3 ^ Z.of_nat ((k - n) - (i - n)).
Proof.
  intros H. pose proof (under_pos n m k). replace (under n m i) with (2 ^ Z.of_nat (Nat.min k n - Nat.min i n) * 3 ^ Z.of_nat ((k - n) - (i - n)) * under n m k); [apply Z.div_mul; lia|].
  unfold under. replace (n - i)%nat with ((Nat.min k n - Nat.min i n) + (n - k))%nat by lia.
  replace (m - (i - n))%nat with (((k - n) - (i - n)) + (m - (k - n)))%nat by lia. rewrite !Nat2Z.inj_add, !Z.pow_add_r by lia. ring.
Qed.

Lemma looping_branches_spec n m : forall fuel l d, 0 <= l <= Z.of_nat fuel ->
  exists d', looping_branches_loop fuel n m l (compute_branches_count n m) d = Ok d' /\
    forall k, (k <= n + m)%nat -> lb_get d' (level_key n k) = plus2 (lb_get d (level_key n k)) (cut_at n m l k) (under_cut n m l k).
Proof.
  rewrite branches_count_levels. 
  assert (Z0 : forall k, cut_at n m 0 k = 0 /\ under_cut n m 0 k = 0).
  { intros [|k]; cbn [cut_at under_cut]; rewrite ?Zdiv_0_l; lia. }
  induction fuel as [|f IH]; intros l d Hl.
  - assert (l = 0) by lia. subst l. exists d. split; [reflexivity|]. intros k Hk. destruct (Z0 k) as [-> ->]. symmetry. apply plus2_0.
  - cbn [looping_branches_loop]. destruct (Z.eqb_spec l 0) as [->|Hne].
    + exists d. split; [reflexivity|]. intros k Hk. destruct (Z0 k) as [-> ->]. symmetry. apply plus2_0.
    + destruct (descend_spec n m l ltac:(lia) (n + m) 0 ltac:(lia)) as (i & Hi & Hlt & Hle & E); [intros i' Hi'; lia|].
      cbn [Nat.min Nat.sub] in E. rewrite E. clear E.
      set (d1 := lb_set d _ _). destruct (ignore_bin_get (n - Nat.min i n) (Nat.min i n) 1 d1) as (d2 & E2 & G2). rewrite E2.
      set (d3 := lb_ignore_ter _ _ _ _ _). pose proof (under_pos n m i) as Pi.
      destruct (IH (l - under n m i) d3) as (d' & E' & G'); [lia|]. exists d'. split; [exact E'|]. intros k Hk. rewrite G' by exact Hk.
      destruct (cut_step n m l i k) as [C1 C2]; [lia|lia|exact Hk|exact Hlt|exact Hle|].
      assert (G3 : lb_get d3 (level_key n k) = plus2 (lb_get d (level_key n k)) (if (k =? i)%nat then 1 else 0) (if (i <? k)%nat then under n m i / under n m k else 0)).
      { unfold d3, level_key. rewrite ignore_ter_get, G2. unfold d1. rewrite lb_get_set.
        destruct (Nat.eqb_spec k i) as [->|Nki].
        - rewrite key_eqb_refl, (proj2 (Nat.ltb_ge i i)) by lia. rewrite (proj2 (Nat.ltb_ge (Nat.min i n) (Nat.min i n))) by lia.
          rewrite (proj2 (Nat.ltb_ge (i - n) (i - n))) by lia. rewrite !andb_false_r. cbn [andb]. rewrite !plus2_plus2. unfold plus2. cbn [fst snd]. f_equal; lia.
        - rewrite key_eqb_neq by (intros K; apply (level_key_inj n) in K; contradiction). rewrite plus2_plus2. f_equal.
          destruct (Nat.ltb_spec i k) as [L|L].
          + rewrite under_div by lia. destruct (Nat.leb_spec k n) as [Hkn|Hkn].
            * rewrite (Nat.min_l k n), (Nat.min_l i n) by lia. replace (k - n)%nat with O by lia. replace (i - n)%nat with O by lia.
              cbn [Nat.eqb andb]. rewrite (proj2 (Nat.ltb_lt i k)) by lia. rewrite (proj2 (Nat.leb_le k (i + (n - i)))) by lia. cbn [andb].
              rewrite (proj2 (Nat.ltb_ge 0 0)) by lia. rewrite andb_false_r. cbn [andb Nat.sub]. change (3 ^ Z.of_nat 0) with 1. lia.
            * rewrite (Nat.min_r k n) by lia. replace ((k - n =? 0)%nat) with false by (symmetry; apply Nat.eqb_neq; lia). cbn [andb].
              rewrite Nat.eqb_refl. rewrite (proj2 (Nat.ltb_lt (i - n) (k - n))) by lia.
              rewrite (proj2 (Nat.leb_le (k - n) (i - n + (m - (i - n))))) by lia. cbn [andb]. lia.
          + replace ((Nat.min i n <? Nat.min k n)%nat) with false by (symmetry; apply Nat.ltb_ge; lia).
            replace ((i - n <? k - n)%nat) with false by (symmetry; apply Nat.ltb_ge; lia). rewrite !andb_false_r. cbn [andb]. lia. }
      rewrite G3, plus2_plus2, C1, C2. f_equal; lia.
Qed.

Lemma cut_under n m l k : cut_at n m l k + under_cut n m l k = l / under n m k.
Proof. destruct k as [|k]; cbn [cut_at under_cut]; lia. Qed.
Lemma cut_bounds n m l k : 0 <= l -> (k <= n + m)%nat -> 0 <= cut_at n m l k /\ (k <> 0%nat -> cut_at n m l k < radix n k).
Proof.
  intros Hl Hk. pose proof (under_pos n m k). destruct k as [|k]; cbn [cut_at]; [split; [apply Z.div_pos; lia|contradiction]|].
  pose proof (radix_pos n (S k)). rewrite (under_S n m k), (Z.mul_comm (radix n (S k))), <- Z.div_div by lia.
  pose proof (Z.div_mod (l / under n m (S k)) (radix n (S k)) ltac:(lia)). pose proof (Z.mod_pos_bound (l / under n m (S k)) (radix n (S k)) ltac:(lia)). cbn [under_cut] in *. split; [|intros _]; nia.
Qed.
Lemma covered_under n m l k : covered n (cut_at n m l) k = under_cut n m l k.
Proof.
  induction k as [|k IH]; [reflexivity|]. cbn [covered under_cut]. rewrite IH, cut_under. reflexivity.
Qed.

Lemma c38_lemma : forall n m l, 0 <= l ->
  exists d, compute_looping_branches n m l (compute_branches_count n m) = Ok d /\
  exists cut : nat -> Z, forall k, (k <= n + m)%nat ->
    lb_get d (level_key n k) = (cut k, covered n cut k) /\
    0 <= cut k /\ (k <> 0%nat -> cut k < radix n k) /\
    cut k + covered n cut k = l / under n m k.
Proof.
  intros n m l Hl. destruct (looping_branches_spec n m (Z.to_nat l) l []) as (d & E & G); [lia|]. exists d. split; [exact E|].
  exists (cut_at n m l). intros k Hk. rewrite G by exact Hk. rewrite covered_under. destruct (cut_bounds n m l k Hl Hk).
  split; [reflexivity|]. split; [assumption|]. split; [assumption|]. apply cut_under.
Qed.
