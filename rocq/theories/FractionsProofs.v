(** Lemmas about fractions and their notation (C08, C12-C14, C48). *)
From Verif Require Import Base BaseLemmas Utils UtilsSpec UtilsProofs Fractions FractionsSpec.
From Coq Require Import ZifyBool ZifyNat Znumtheory Lqa.
Open Scope Z_scope.

(** ** canonical rationals *)
Lemma numer_denom_gcd f : Z.gcd (numer f) (denom f) = 1.
Proof.
  destruct f as [[n d] H]. unfold numer, denom. cbn [this Qnum Qden] in *.
  pose proof (Z.ggcd_gcd n (Zpos d)) as G. pose proof (Z.ggcd_correct_divisors n (Zpos d)) as D.
  unfold Qred in H. destruct (Z.ggcd n (Zpos d)) as [g [a b]]. cbn [fst snd] in *.
  injection H as Ha Hb. subst a. destruct D as [D1 D2].
  assert (Hg : 0 <= g) by (rewrite G; apply Z.gcd_nonneg).
  rewrite <- G. assert (b = Zpos d).
  { destruct b as [|b|b]; cbn [Z.to_pos] in Hb; nia || (subst; reflexivity) || nia. }
  subst b. nia.
Qed.

Lemma frac_eq_decides : eq_decides frac_eqb.
Proof.
  intros a b. unfold frac_eqb, numer, denom. rewrite andb_true_iff, !Z.eqb_eq. split.
  - intros [H1 H2]. apply Qc_is_canon. injection H2 as H2. unfold Qeq. rewrite H1, H2. reflexivity.
  - intros ->. auto.
Qed.

Lemma denom_pos f : 0 < denom f.
Proof. unfold denom. lia. Qed.

Lemma scaled_is_iff f u z : scaled_is f u z <-> numer f * u = z * denom f.
Proof. unfold scaled_is, numer, denom, Qeq, Qmult, inject_Z. cbn [Qnum Qden].
  rewrite Pos.mul_1_r. lia. Qed.

Lemma integral_iff f u : (exists z, scaled_is f u z) <-> (denom f | u).
Proof.
  split.
  - intros [z H]. apply scaled_is_iff in H. apply Gauss with (numer f).
    + exists z. exact H.
    + apply Zgcd_1_rel_prime. rewrite Z.gcd_comm. apply numer_denom_gcd.
  - intros [k ->]. exists (numer f * k). apply scaled_is_iff. ring.
Qed.

Lemma fold_lcm_spec l : forall a, 0 < a -> Forall (fun d => 0 < d) l ->
  let u := fold_left Z.lcm l a in
  0 < u /\ (a | u) /\ Forall (fun d => (d | u)) l /\
  forall v, (a | v) -> Forall (fun d => (d | v)) l -> (u | v).
Proof.
  induction l as [|d l IH]; intros a Ha Hl; cbn [fold_left].
  - repeat split; auto. exact (Z.divide_refl a).
  - inversion Hl as [|? ? Hd Hl']; subst.
    assert (P : 0 < Z.lcm a d).
    { pose proof (Z.lcm_nonneg a d). pose proof (proj1 (Z.lcm_eq_0 a d)). lia. }
    destruct (IH (Z.lcm a d) P Hl') as (H1 & H2 & H3 & H4). cbn zeta in *.
    split; [exact H1|]. split; [exact (Z.divide_trans _ _ _ (Z.divide_lcm_l a d) H2)|]. split.
    + constructor; [exact (Z.divide_trans _ _ _ (Z.divide_lcm_r a d) H2)|exact H3].
    + intros v Hv Hf. inversion Hf; subst. apply H4; [|assumption]. apply Z.lcm_least; assumption.
Qed.

Lemma fractions_to_integers_spec fs :
  let (zs, u) := fractions_to_integers fs in
  0 < u /\ Forall2 (fun f z => scaled_is f u z) fs zs /\
  forall v, 0 < v -> Forall (fun f => exists z, scaled_is f v z) fs -> u <= v /\ (u | v).
Proof.
  unfold fractions_to_integers, lcm_list.
  destruct (fold_lcm_spec (map denom fs) 1) as (H1 & _ & H3 & H4); [lia| |].
  { apply Forall_map, Forall_forall. intros f _. apply denom_pos. }
  set (u := fold_left Z.lcm (map denom fs) 1) in *. split; [exact H1|]. split.
  - clear H4. clearbody u. induction fs as [|f fs IH]; [constructor|]. cbn [map] in *. inversion H3; subst.
    constructor; [|apply IH; auto].
    apply scaled_is_iff. destruct H2 as [k ->]. rewrite Z.div_mul by (pose proof (denom_pos f); lia). ring.
  - intros v Hv Hf. assert (D : (u | v)).
    { apply H4; [exists v; lia|]. apply Forall_map. eapply Forall_impl; [|exact Hf].
      intros f Hz. apply integral_iff. exact Hz. }
    split; [|exact D]. apply Z.divide_pos_le; assumption.
Qed.

(** ** decimal_representation_info *)
Lemma strip_factor_spec p : 2 <= p -> forall fuel d k, 0 < d -> d < 2 ^ Z.of_nat fuel ->
  exists d' j, strip_factor fuel p d k = Ok (d', k + j) /\ 0 <= j /\ d = d' * p ^ j /\ d' mod p <> 0.
Proof.
  intros Hp. induction fuel as [|fuel IH]; intros d k Hd Hf.
  - cbn in Hf. lia.
  - cbn [strip_factor]. destruct (Z.eqb_spec (d mod p) 0) as [E|E].
    + apply Z.mod_divide in E; [|lia]. destruct E as [q ->]. rewrite Z.div_mul by lia.
      rewrite Nat2Z.inj_succ, Z.pow_succ_r in Hf by lia.
      destruct (IH q (k + 1)) as (d' & j & E1 & E2 & E3 & E4); [nia|nia|].
      exists d', (j + 1). rewrite E1. repeat split; auto; [f_equal; f_equal; lia|lia|].
      rewrite E3, Z.pow_add_r by lia. ring.
    + exists d, 0. rewrite Z.add_0_r. repeat split; auto; lia.
Qed.

Lemma prime_5 : prime 5.
Proof. apply prime_intro; [lia|]. intros n Hn.
  assert (n = 1 \/ n = 2 \/ n = 3 \/ n = 4) as [-> | [-> | [-> | ->]]] by lia; apply Zgcd_1_rel_prime; reflexivity. Qed.

Lemma rel_prime_pow a b k : 0 <= k -> rel_prime a b -> rel_prime a (b ^ k).
Proof. intros Hk H. revert k Hk. apply natlike_ind.
  - apply Zgcd_1_rel_prime. cbn [Z.pow Z.pow_pos]. apply Z.gcd_1_r.
  - intros k Hk IH. rewrite Z.pow_succ_r by exact Hk. apply rel_prime_mult; assumption. Qed.
Lemma rel_prime_of_mod p d : prime p -> d mod p <> 0 -> rel_prime d p.
Proof. intros Hp H. apply rel_prime_sym. apply prime_rel_prime; [exact Hp|].
  intros D. apply H. apply Z.mod_divide; [|exact D]. destruct Hp. lia. Qed.

Lemma divides_pow_le p a k : 2 <= p -> 0 <= k -> (p ^ a | p ^ k) -> a <= k.
Proof. intros Hp Hk D. apply Z.divide_pos_le in D; [|apply Z.pow_pos_nonneg; lia].
  destruct (Z.le_gt_cases a k) as [L|L]; [exact L|].
  pose proof (Z.pow_lt_mono_r p k a). lia. Qed.

Lemma ten_pow k : 0 <= k -> 10 ^ k = 2 ^ k * 5 ^ k.
Proof. intros H. rewrite <- Z.pow_mul_l. reflexivity. Qed.

Section Den.
Variables (a b d : Z) (Ha : 0 <= a) (Hb : 0 <= b) (Hd : 0 < d) (H2 : d mod 2 <> 0) (H5 : d mod 5 <> 0).

Lemma rel2 x : 0 <= x -> rel_prime (2 ^ a) (5 ^ x).
Proof. intros Hx. apply rel_prime_sym. apply rel_prime_pow; [exact Ha|].
  apply rel_prime_sym. apply rel_prime_pow; [exact Hx|]. apply Zgcd_1_rel_prime. reflexivity. Qed.
Lemma rel5 x : 0 <= x -> rel_prime (5 ^ b) (2 ^ x).
Proof. intros Hx. apply rel_prime_sym. apply rel_prime_pow; [exact Hb|].
  apply rel_prime_sym. apply rel_prime_pow; [exact Hx|]. apply Zgcd_1_rel_prime. reflexivity. Qed.

Lemma den_divides_pow10 k : 0 <= k ->
  ((d * 5 ^ b * 2 ^ a | 10 ^ k) <-> d = 1 /\ Z.max a b <= k).
Proof.
  intros Hk. split.
  - intros D. rewrite ten_pow in D by exact Hk.
    assert (D1 : (d | 1)).
    { apply Gauss with (10 ^ k).
      - rewrite Z.mul_1_r, ten_pow by exact Hk. eapply Z.divide_trans; [|exact D]. exists (5 ^ b * 2 ^ a). ring.
      - change 10 with (2 * 5). rewrite Z.pow_mul_l. apply rel_prime_mult; apply rel_prime_pow; try exact Hk.
        + apply rel_prime_of_mod; [exact prime_2|exact H2].
        + apply rel_prime_of_mod; [exact prime_5|exact H5]. }
    apply Z.divide_pos_le in D1; [|lia]. split; [lia|].
    assert (a <= k).
    { apply (divides_pow_le 2); [lia|exact Hk|]. apply Gauss with (5 ^ k); [|apply rel2; exact Hk].
      rewrite Z.mul_comm. eapply Z.divide_trans; [|exact D]. exists (d * 5 ^ b). ring. }
    assert (b <= k).
    { apply (divides_pow_le 5); [lia|exact Hk|]. apply Gauss with (2 ^ k); [|apply rel5; exact Hk].
      eapply Z.divide_trans; [|exact D]. exists (d * 2 ^ a). ring. }
    lia.
  - intros [-> M]. rewrite ten_pow by exact Hk. exists (2 ^ (k - a) * 5 ^ (k - b)).
    replace k with ((k - a) + a) at 1 by lia. replace k with ((k - b) + b) at 2 by lia.
    rewrite !Z.pow_add_r by lia. ring.
Qed.

Lemma period_exists : exists p, 0 < p /\ (d | 10 ^ p - 1).
Proof.
  (* pigeonhole on the residues of 10^0 .. 10^d *)
  set (N := Z.to_nat d).
  set (f := fun i => Z.to_nat (10 ^ Z.of_nat i mod d)).
  assert (Dup : ~ NoDup (map f (seq 0 (S N)))).
  { intros ND. assert (I : incl (map f (seq 0 (S N))) (seq 0 N)).
    { intros x Hx. apply in_map_iff in Hx. destruct Hx as (i & <- & _). apply in_seq. unfold f, N.
      pose proof (Z.mod_pos_bound (10 ^ Z.of_nat i) d Hd). lia. }
    pose proof (NoDup_incl_length ND I) as L. rewrite map_length, !seq_length in L. lia. }
  assert (Ex : exists i j, (i < j)%nat /\ f i = f j).
  { clear -Dup. set (l := seq 0 (S N)) in *. assert (S : forall i j, (i < j < length l)%nat -> (nth i l 0 < nth j l 0)%nat).
    { intros i j H. unfold l in *. rewrite seq_length in H. rewrite !seq_nth by lia. lia. }
    clearbody l. induction l as [|x l IH].
    - exfalso. apply Dup. constructor.
    - destruct (in_dec Nat.eq_dec (f x) (map f l)) as [I|I].
      + apply in_map_iff in I. destruct I as (y & E & Hy). exists x, y. split; [|auto].
        apply In_nth with (d := 0%nat) in Hy. destruct Hy as (n & Hn & <-).
        specialize (S 0%nat (Datatypes.S n)). cbn [nth length] in S. apply S. lia.
      + apply IH.
        * intros ND. apply Dup. cbn [map]. constructor; assumption.
        * intros i j H. specialize (S (Datatypes.S i) (Datatypes.S j)). cbn [nth length] in S. apply S. lia. }
  destruct Ex as (i & j & Hij & E). exists (Z.of_nat j - Z.of_nat i). split; [lia|].
  assert (M : 10 ^ Z.of_nat i mod d = 10 ^ Z.of_nat j mod d).
  { unfold f in E. pose proof (Z.mod_pos_bound (10 ^ Z.of_nat i) d Hd).
    pose proof (Z.mod_pos_bound (10 ^ Z.of_nat j) d Hd). lia. }
  apply Gauss with (10 ^ Z.of_nat i).
  - rewrite Z.mul_sub_distr_l, <- Z.pow_add_r by lia.
    replace (Z.of_nat i + (Z.of_nat j - Z.of_nat i)) with (Z.of_nat j) by lia. rewrite Z.mul_1_r.
    apply Z.mod_divide; [lia|]. rewrite Zminus_mod, M, Z.sub_diag. apply Z.mod_0_l. lia.
  - change 10 with (2 * 5). rewrite Z.pow_mul_l. apply rel_prime_mult; apply rel_prime_pow; try lia.
    + apply rel_prime_of_mod; [exact prime_2|exact H2].
    + apply rel_prime_of_mod; [exact prime_5|exact H5].
Qed.

Lemma den_divides_period k : 0 <= k ->
  ((exists p, 0 < p /\ (d * 5 ^ b * 2 ^ a | 10 ^ k * (10 ^ p - 1))) <-> Z.max a b <= k).
Proof.
  intros Hk. split.
  - intros (p & Hp & D). rewrite ten_pow in D by exact Hk.
    assert (R : forall q, (q = 2 \/ q = 5) -> forall x, 0 <= x -> rel_prime (q ^ x) (10 ^ p - 1)).
    { intros q Hq x Hx. apply rel_prime_sym, rel_prime_pow; [exact Hx|].
      apply rel_prime_of_mod; [destruct Hq as [-> | ->]; [exact prime_2|exact prime_5]|].
      replace p with (Z.succ (p - 1)) by lia. rewrite Z.pow_succ_r by lia.
      destruct Hq as [-> | ->].
      - replace (10 * 10 ^ (p - 1) - 1) with (1 + (5 * 10 ^ (p - 1) - 1) * 2) by ring. rewrite Z.mod_add by lia. discriminate.
      - replace (10 * 10 ^ (p - 1) - 1) with (4 + (2 * 10 ^ (p - 1) - 1) * 5) by ring. rewrite Z.mod_add by lia. discriminate. }
    assert (a <= k).
    { apply (divides_pow_le 2); [lia|exact Hk|]. apply Gauss with (5 ^ k); [|apply rel2; exact Hk].
      apply Gauss with (10 ^ p - 1); [|apply R; auto].
      eapply Z.divide_trans; [|replace ((10 ^ p - 1) * (5 ^ k * 2 ^ k)) with (2 ^ k * 5 ^ k * (10 ^ p - 1)) by ring; exact D].
      exists (d * 5 ^ b). ring. }
    assert (b <= k).
    { apply (divides_pow_le 5); [lia|exact Hk|]. apply Gauss with (2 ^ k); [|apply rel5; exact Hk].
      apply Gauss with (10 ^ p - 1); [|apply R; auto].
      eapply Z.divide_trans; [|replace ((10 ^ p - 1) * (2 ^ k * 5 ^ k)) with (2 ^ k * 5 ^ k * (10 ^ p - 1)) by ring; exact D].
      exists (d * 2 ^ a). ring. }
    lia.
  - intros M. destruct period_exists as (p & Hp & [q Hq]). exists p. split; [exact Hp|].
    rewrite ten_pow by exact Hk. rewrite Hq. exists (q * 2 ^ (k - a) * 5 ^ (k - b)).
    replace k with ((k - a) + a) at 1 by lia. replace k with ((k - b) + b) at 2 by lia.
    rewrite !Z.pow_add_r by lia. ring.
Qed.
End Den.

Lemma finite_iff f k : finite_decimals f k <-> (denom f | 10 ^ k).
Proof. apply integral_iff. Qed.
Lemma periodic_iff f k : periodic_from f k <-> exists p, 0 < p /\ (denom f | 10 ^ k * (10 ^ p - 1)).
Proof. unfold periodic_from. split.
  - intros (p & z & Hp & H). exists p. split; [exact Hp|]. apply integral_iff. exists z. exact H.
  - intros (p & Hp & H). apply integral_iff in H. destruct H as [z H]. exists p, z. auto. Qed.

(** the loops: denominator = d * 5^b * 2^a *)
Lemma info_loops f : exists a b d, 0 <= a /\ 0 <= b /\ 0 < d /\ d mod 2 <> 0 /\ d mod 5 <> 0 /\
  denom f = d * 5 ^ b * 2 ^ a /\
  decimal_representation_info f =
    (if d =? 1 then Ok (true, Some (Z.max a b))
     else if (a =? 0) && (b =? 0) then Ok (false, None) else Ok (false, Some (Z.max a b))).
Proof.
  unfold decimal_representation_info. pose proof (denom_pos f) as P. set (D := denom f) in *.
  assert (F : D < 2 ^ Z.of_nat (S (Z.to_nat (Z.log2 D)))).
  { pose proof (Z.log2_spec D P). pose proof (Z.log2_nonneg D).
    replace (Z.of_nat (S (Z.to_nat (Z.log2 D)))) with (Z.succ (Z.log2 D)) by lia. lia. }
  destruct (strip_factor_spec 2 ltac:(lia) _ D 0 P F) as (d1 & a & E1 & Ha & E2 & M1).
  rewrite E1. cbn [bind]. rewrite Z.add_0_l.
  assert (0 < 2 ^ a) by (apply Z.pow_pos_nonneg; lia).
  assert (P1 : 0 < d1) by nia. assert (L1 : d1 <= D) by nia.
  destruct (strip_factor_spec 5 ltac:(lia) _ d1 0 P1 ltac:(eapply Z.le_lt_trans; [exact L1|exact F])) as (d & b & E3 & Hb & E4 & M2).
  rewrite E3. cbn [bind]. rewrite Z.add_0_l.
  assert (0 < 5 ^ b) by (apply Z.pow_pos_nonneg; lia).
  exists a, b, d. repeat split; auto; try nia.
Qed.

Lemma decimal_info_spec f : exists r, decimal_representation_info f = Ok r /\
  match r with
  | (true, Some m) => 0 <= m /\ finite_decimals f m /\ forall k, 0 <= k -> finite_decimals f k -> m <= k
  | (true, None) => False
  | (false, Some m) => (forall k, 0 <= k -> ~ finite_decimals f k) /\
      0 < m /\ periodic_from f m /\ forall k, 0 <= k -> periodic_from f k -> m <= k
  | (false, None) => (forall k, 0 <= k -> ~ finite_decimals f k) /\ periodic_from f 0
  end.
Proof.
  destruct (info_loops f) as (a & b & d & Ha & Hb & Hd & H2 & H5 & E & ->).
  pose proof (den_divides_pow10 a b d Ha Hb Hd H2 H5) as T.
  pose proof (den_divides_period a b d Ha Hb Hd H2 H5) as R.
  rewrite <- E in *.
  destruct (Z.eqb_spec d 1) as [->|N].
  - eexists. split; [reflexivity|]. cbn. split; [lia|]. split.
    + apply finite_iff, T; [lia|]. split; [reflexivity|lia].
    + intros k Hk F. apply finite_iff, T in F; [tauto|exact Hk].
  - assert (NF : forall k, 0 <= k -> ~ finite_decimals f k).
    { intros k Hk F. apply finite_iff, T in F; [|exact Hk]. tauto. }
    destruct ((a =? 0) && (b =? 0)) eqn:Z0; eexists; (split; [reflexivity|]); cbn; split; auto.
    + apply periodic_iff, R; lia.
    + split; [lia|]. split.
      * apply periodic_iff, R; lia.
      * intros k Hk F. apply periodic_iff, R in F; [exact F|exact Hk].
Qed.
