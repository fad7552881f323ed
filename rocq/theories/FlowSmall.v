(** Networks of at most eight units are too small for a belt to get lost. *)
From Verif Require Import Base BaseLemmas Cost CostSpec CostProofs Utils Fractions FractionsProofs Load Tree TreeSpec HeapLemmas Expand ExpandSpec LevelProofs ExpandProofs
  FrameProofs MergeProofs LocalProofs MergeSafe TraverseSafe SavedSpec SavedProofs Conclude PlantProofs AttachProofs FracProofs FlowSpec FlowProofs FlowMerge FlowOps FlowWalk FlowStart.
From Coq Require Import QArith Qcanon.
Open Scope Z_scope.

Definition wholeb (cap : nat) (l : list (nat * nat)) : bool :=
  let k := kept cap (length l) in forallb (fun x => negb (existsb (fun y => (fst x =? fst y)%nat && (snd x =? snd y)%nat) (skipn k l))) (firstn k l).
Lemma wholeb_whole cap l : wholeb cap l = true -> whole cap l.
Proof.
  intros E x I J. unfold wholeb in E. rewrite forallb_forall in E. specialize (E x I). apply negb_true_iff in E. assert (X : existsb (fun y => (fst x =? fst y)%nat && (snd x =? snd y)%nat) (skipn (kept cap (length l)) l) = true); [|congruence].
  apply existsb_exists. exists x. split; [exact J|]. rewrite !Nat.eqb_refl. reflexivity.
Qed.
Definition levels_of (d q : Z) : list nat := match find_n_m_l d with Ok (n, m, l, _) => belt_levels n m q | Err _ => [] end.
Definition back_levels (d : Z) : list nat := match find_n_m_l d with Ok (n, m, l, _) => belt_levels n m l | Err _ => [] end.
Definition zrange (n : nat) : list Z := map Z.of_nat (seq 1 n).
Lemma zrange_in n z : 1 <= z <= Z.of_nat n -> In z (zrange n).
Proof. intros H. unfold zrange. apply in_map_iff. exists (Z.to_nat z). split; [lia|]. apply in_seq. lia. Qed.
Lemma back_short : forallb (fun d => (length (back_levels d) <=? 2)%nat) (zrange 8) = true.
Proof. vm_compute. reflexivity. Qed.
Lemma own_whole : forallb (fun v => forallb (fun w => (v <=? w) || forallb (fun d => negb (w mod d =? 0) ||
   wholeb 3 (map (pair 0%nat) (levels_of (v / Z.gcd v w) (w / Z.gcd v w)) ++ map (pair 1%nat) (back_levels d))) (zrange 8)) (zrange 8)) (zrange 8) = true.
Proof. vm_compute. reflexivity. Qed.

Lemma back_two d : 1 <= d <= 8 -> (length (back_levels d) <= 2)%nat.
Proof. intros B. pose proof back_short as E. rewrite forallb_forall in E. apply Nat.leb_le, E, zrange_in, B. Qed.
Lemma own_fits v w d : 1 <= w < v -> v <= 8 -> 1 <= d <= 8 -> w mod d = 0 ->
  whole 3 (map (pair 0%nat) (levels_of (v / Z.gcd v w) (w / Z.gcd v w)) ++ map (pair 1%nat) (back_levels d)).
Proof.
  intros B1 B2 B3 B4. pose proof own_whole as E. rewrite forallb_forall in E. specialize (E v (zrange_in 8 v ltac:(lia))). rewrite forallb_forall in E. specialize (E w (zrange_in 8 w ltac:(lia))).
  apply orb_true_iff in E. destruct E as [E|E]; [apply Z.leb_le in E; lia|]. rewrite forallb_forall in E. specialize (E d (zrange_in 8 d B3)). apply orb_true_iff in E. destruct E as [E|E].
  - rewrite B4 in E. discriminate.
  - apply wholeb_whole, E.
Qed.

Lemma gcd_part v c : 0 < v -> 1 <= v / Z.gcd v c <= v /\ v mod (v / Z.gcd v c) = 0.
Proof.
  intros Pv. destruct (Z.gcd_divide_l v c) as [k Ek]. pose proof (Z.gcd_nonneg v c) as Nn. remember (Z.gcd v c) as e eqn:Ee. clear Ee. subst v.
  assert (Pe : 0 < e) by (destruct (Z.eq_dec e 0) as [->|]; lia). rewrite Z.div_mul by lia. apply (proj1 (Z.mul_pos_cancel_r k e Pe)) in Pv. split; [split; [lia|]; rewrite <- (Z.mul_1_r k) at 1; apply Z.mul_le_mono_nonneg_l; lia|]. rewrite Z.mul_comm. apply Z.mod_mul. lia.
Qed.
Section Small.
Variables (h : heap Z) (t : tree Z) (vals : list Z).
Hypothesis N : network h t vals.
Hypothesis Lv : levelled h t.
Hypothesis Tg : forall a, in_tree h t a -> tagged h a.
Hypothesis Sm : forall a, in_tree h t a -> value h a <= 8.
Notation g := (map node_frac h).
Lemma same a : in_tree h t a -> (a < length g)%nat /\ get g a = node_frac (get h a).
Proof. intros Ia. apply (get_frac_in h a (net_alloc _ _ _ N a Ia)). Qed.
Notation old := (old (start t g) (part h t g)).
Lemma kid_small x c : old x -> (2 <= length (children h x))%nat -> In c (children h x) -> 1 <= value h c < value h x.
Proof.
  intros O L I. destruct (st_own h t g Tg same x O) as (own & _ & _ & S1 & _). specialize (S1 L). assert (Iv : In (value h c) (map (value h) (children h x))) by (apply in_map, I). destruct S1 as [k Bk _ Pm|d q Hd Ev Es|k q _ Ek Bk Pm].
  - apply (Permutation_in _ Pm) in Iv. destruct Iv as [Iv|[Iv|[]]]; lia.
  - rewrite Es in Iv. apply repeat_spec in Iv. rewrite Iv. pose proof (st_pos h t vals g N same c (st_kid h t g same x c O I)). rewrite Iv in *. nia.
  - apply (Permutation_in _ Pm) in Iv. pose proof (st_pos h t vals g N same c (st_kid h t g same x c O I)). destruct Iv as [Iv|[Iv|[Iv|[]]]]; lia.
Qed.
Lemma back_is y : old y -> named_back h y = [] \/ exists d, named_back h y = back_levels d /\ 1 <= d <= value h y /\ value h y mod d = 0.
Proof.
  intros O. destruct (st_own h t g Tg same y O) as (own & E & _ & S1 & S2). rewrite (back_own h y own E). destruct (Nat.lt_ge_cases (length (children h y)) 2) as [B|B]; [rewrite (S2 B); left; reflexivity|].
  pose proof (st_pos h t vals g N same y O) as Py. destruct (S1 B) as [c Bc _ _|d q Hd Ev Es|c q _ _ _ _].
  - destruct (zmem c _); [left; reflexivity|right]. exists (value h y / Z.gcd (value h y) c). cbn [flat_map]. rewrite app_nil_r. split; [reflexivity|].
    apply gcd_part, Py.
  - destruct (3 <? d); [right|left; reflexivity]. exists d. cbn [flat_map]. rewrite app_nil_r. split; [reflexivity|]. rewrite Ev in *. split; [apply (proj1 (Z.mul_pos_cancel_l d q ltac:(lia))) in Py; clear -Hd Py; nia|]. rewrite Z.mul_comm. apply Z.mod_mul. lia.
  - left. reflexivity.
Qed.
Lemma back_few y : old y -> (length (named_back h y) <= 2)%nat.
Proof.
  intros O. destruct (back_is y O) as [->|(d & -> & Bd & _)]; [cbn; lia|]. apply back_two. pose proof (Sm y (proj1 (old_in h t g same y) O)). lia.
Qed.
Lemma kept_few k : (k <= 3 \/ kept 3 k <= 2)%nat.
Proof. unfold kept. destruct (k <=? 3)%nat eqn:E; [left; apply Nat.leb_le, E|right]. destruct (Nat.even _); lia. Qed.
Lemma never_torn y : in_tree h t y -> ~ torn h y.
Proof.
  intros Iy. assert (O : old y) by (apply (old_in h t g same), Iy). assert (W : whole (if (length (parents h y) =? 0)%nat then 2 else 3) (named_into h y ++ map (pair y) (named_back h y))); [|intros (b & I & J); exact (W b I J)].
  pose proof (back_few y O) as Bk. destruct (parents h y) as [|x [|x' ps]] eqn:EP.
  - apply whole_short. unfold named_into. rewrite EP, app_length, map_length. exact Bk.
  - cbn [length Nat.eqb]. rewrite (into_alone h x y EP). assert (Ox : old x) by (apply (st_par h t vals g N same y x O); rewrite EP; left; reflexivity).
    assert (Ic : In y (children h x)) by (apply (st_links h t vals g N same x y Ox O); rewrite EP; left; reflexivity).
    unfold delivered. destruct (find extraction (n_expands (get h x))) as [u|] eqn:EF.
    2:{ apply whole_short. rewrite app_length, !map_length. cbn [map length]. lia. }
    apply find_some in EF. destruct EF as [Iu Eu]. destruct u as [c|d|k|s]; try discriminate.
    destruct (st_op h t g Tg same x (TExtract c) Ox Iu eq_refl) as (L & _ & S). pose proof (kid_small x y Ox L Ic) as Bw. pose proof (Sm x (proj1 (old_in h t g same x) Ox)) as Bv.
    assert (Eg : Z.gcd (value h x) c = Z.gcd (value h x) (value h y)).
    { remember [TExtract c] as own eqn:Eo. destruct S as [c' _ _ Pm|d q _ _ _|c' q _ _ _ _]; [|destruct (3 <? d); discriminate|discriminate]. destruct (zmem c' _); [discriminate|]. injection Eo as ->.
      assert (Iv : In (value h y) (map (value h) (children h x))) by (apply in_map, Ic). apply (Permutation_in _ Pm) in Iv. destruct Iv as [<-|[<-|[]]]; [reflexivity|]. symmetry. apply gcd_rest. }
    rewrite Eg. fold (levels_of (value h x / Z.gcd (value h x) (value h y)) (value h y / Z.gcd (value h x) (value h y))).
    assert (Nxy : x <> y) by (intros ->; apply (st_loop h t g Lv Tg same y O Ic)).
    apply (whole_map (fun b => (if (fst b =? y)%nat then 1 else 0, snd b)%nat)). rewrite map_app, !map_map. cbn [fst snd]. rewrite Nat.eqb_refl. destruct (Nat.eqb_spec x y) as [X|_]; [contradiction|].
    destruct (back_is y O) as [->|(d & -> & Bd & Md)].
    + change (map (fun x0 => (1%nat, x0)) []) with (map (pair 1%nat) (@nil nat)). change (@nil nat) with (back_levels 1). apply own_fits; try lia.
    + apply own_fits; try lia; exact Md.
  - cbn [length Nat.eqb]. rewrite (idle_into h t vals g N same) by (first [exact O|intros p Ip; apply (many_idle h t vals g N Tg same y p O); [rewrite EP; cbn; lia|exact Ip]]).
    set (D := map (fun p => (p, 0%nat)) (parents h y)). set (k := length (D ++ map (pair y) (named_back h y))). destruct (kept_few k) as [B|B]; [apply whole_short, B|].
    assert (Ld : (2 <= length D)%nat) by (subst D; rewrite map_length, EP; cbn; lia). assert (ND : NoDup D) by (apply FinFun.Injective_map_NoDup; [intros a b X; injection X; auto|apply (st_simple h t vals g N same y O)]).
    intros b I J. fold k in I, J. rewrite firstn_app in I. replace (kept 3 k - length D)%nat with 0%nat in I by lia. rewrite firstn_O, app_nil_r in I. rewrite skipn_app in J. apply in_app_or in J. destruct J as [J|J].
    + rewrite <- (firstn_skipn (kept 3 k) D) in ND. revert ND I J. generalize (firstn (kept 3 k) D) (skipn (kept 3 k) D). induction l as [|a l IH]; intros l0 ND I J; [destruct I|]. inversion ND as [|? ? Na ND']; subst. destruct I as [->|I]; [apply Na, in_or_app; right; exact J|apply (IH l0 ND' I J)].
    + assert (Id : In b D) by (rewrite <- (firstn_skipn (kept 3 k) D); apply in_or_app; left; exact I). subst D. apply in_map_iff in Id. destruct Id as (p & <- & Ip).
      assert (Ib : In (p, 0%nat) (map (pair y) (named_back h y))) by (rewrite <- (firstn_skipn (kept 3 k - length (map (fun p0 => (p0, 0%nat)) (parents h y))) (map (pair y) (named_back h y))); apply in_or_app; right; exact J).
      apply in_map_iff in Ib. destruct Ib as (z & X & _). injection X as -> _. apply (st_loop h t g Lv Tg same p O). apply (st_links h t vals g N same p p O O). exact Ip.
Qed.
End Small.
