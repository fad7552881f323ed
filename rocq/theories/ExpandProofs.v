(** expand_divide and expand_extract (Expand.v) build regular splitter trees. *)
From Verif Require Import Base BaseLemmas Cost CostSpec CostProofs Utils Fractions Load Tree TreeSpec HeapLemmas Expand ExpandSpec BranchProofs LevelProofs BuildProofs.
From Coq Require Import QArith Qcanon.
Open Scope Z_scope.

(** ** Rationals *)
Lemma foz_mult a b : frac_of_Z (a * b) = (frac_of_Z a * frac_of_Z b)%Qc.
Proof. apply Qc_is_canon. cbn [this frac_of_Z Qcmult Q2Qc]. rewrite !Qred_correct. reflexivity. Qed.
Lemma foz_plus a b : frac_of_Z (a + b) = (frac_of_Z a + frac_of_Z b)%Qc.
Proof. apply Qc_is_canon. cbn [this frac_of_Z Qcplus Q2Qc]. rewrite !Qred_correct. unfold Qeq, Qplus. cbn. lia. Qed.
Lemma foz_inj a b : frac_of_Z a = frac_of_Z b -> a = b.
Proof.
  intros E. apply (f_equal this) in E. cbn [this frac_of_Z Q2Qc] in E.
  assert (Q : (a # 1 == b # 1)%Q) by (rewrite <- (Qred_correct (a # 1)), <- (Qred_correct (b # 1)), E; reflexivity).
  unfold Qeq in Q. cbn in Q. lia.
Qed.
Lemma foz_0 : frac_of_Z 0 = Q2Qc 0.
Proof. reflexivity. Qed.
Lemma foz_neq0 a : a <> 0 -> frac_of_Z a <> Q2Qc 0.
Proof. intros H E. apply H, foz_inj. exact E. Qed.
Lemma foz_le a b : a <= b <-> (frac_of_Z a <= frac_of_Z b)%Qc.
Proof. unfold Qcle. cbn [this frac_of_Z Q2Qc]. rewrite !Qred_correct. unfold Qle. cbn. lia. Qed.
Lemma foz_nonneg a : 0 <= a -> (Q2Qc 0 <= frac_of_Z a)%Qc.
Proof. intros H. apply (foz_le 0 a). exact H. Qed.
Lemma nonneg_mult x y : (Q2Qc 0 <= x)%Qc -> (Q2Qc 0 <= y)%Qc -> (Q2Qc 0 <= x * y)%Qc.
Proof. intros H1 H2. unfold Qcle in *. change (0 <= Qred (x * y))%Q. rewrite Qred_correct. apply Qmult_le_0_compat; [exact H1|exact H2]. Qed.
Lemma nonneg_inv x : (Q2Qc 0 <= x)%Qc -> (Q2Qc 0 <= / x)%Qc.
Proof. intros H. unfold Qcle in *. change (0 <= Qred (/ x))%Q. rewrite Qred_correct. apply Qinv_le_0_compat. exact H. Qed.
Lemma nonneg_over x k : (Q2Qc 0 <= x)%Qc -> 0 <= k -> (Q2Qc 0 <= x / frac_of_Z k)%Qc.
Proof. intros H1 H2. unfold Qcdiv. apply nonneg_mult; [exact H1|]. apply nonneg_inv, foz_nonneg, H2. Qed.
Lemma nonneg_plus x y : (Q2Qc 0 <= x)%Qc -> (Q2Qc 0 <= y)%Qc -> (Q2Qc 0 <= x + y)%Qc.
Proof. intros H1 H2. replace (Q2Qc 0) with (Q2Qc 0 + Q2Qc 0)%Qc by ring. apply Qcplus_le_compat; assumption. Qed.
Lemma negative_false x : negative x = false <-> (Q2Qc 0 <= x)%Qc.
Proof.
  unfold negative, numer, Qcle. change (this (Q2Qc 0)) with 0%Q. rewrite Z.ltb_ge. unfold Qle. cbn. lia.
Qed.

(** ** level_values *)
Lemma level_values_spec x n m : level_values x n m = map (fun k => (x / frac_of_Z (slots n k))%Qc) (seq 0 (S (n + m))).
Proof.
  unfold level_values. set (step := fun k l => l ++ [over (last l x) k]).
  assert (B : forall j, (j <= n)%nat -> Nat.iter j (step 2) [x] = map (fun k => (x / frac_of_Z (slots n k))%Qc) (seq 0 (S j))).
  { induction j as [|j IH]; intros Hj.
    - cbn [Nat.iter nat_rect seq map]. rewrite slots_0. apply (f_equal (fun y => [y])). change (frac_of_Z 1) with 1%Qc. field. discriminate.
    - rewrite iter_S, IH by lia. unfold step. rewrite (seq_S (S j)), map_app. f_equal. cbn [Nat.add map]. f_equal.
      rewrite (seq_S j), map_app. cbn [Nat.add map]. rewrite last_last. unfold over. rewrite slots_S. unfold radix. rewrite (proj2 (Nat.leb_le (S j) n)) by lia.
      rewrite foz_mult. pose proof (slots_pos n j). field. split; apply foz_neq0; lia. }
  rewrite B by lia. clear B.
  assert (T : forall j, Nat.iter j (step 3) (map (fun k => (x / frac_of_Z (slots n k))%Qc) (seq 0 (S n))) = map (fun k => (x / frac_of_Z (slots n k))%Qc) (seq 0 (S (n + j)))).
  { induction j as [|j IH]; [rewrite Nat.add_0_r; reflexivity|].
    rewrite iter_S, IH. unfold step. replace (S (n + S j)) with (S (S (n + j))) by lia. rewrite (seq_S (S (n + j))), map_app. f_equal. cbn [Nat.add map]. f_equal.
    rewrite (seq_S (n + j)), map_app. cbn [Nat.add map]. rewrite last_last. unfold over. rewrite slots_S. unfold radix. rewrite (proj2 (Nat.leb_gt (S (n + j)) n)) by lia.
    rewrite foz_mult. pose proof (slots_pos n (n + j)). field. split; apply foz_neq0; lia. }
  apply T.
Qed.
Lemma level_values_at x n m k : (k <= n + m)%nat -> at_index (level_values x n m) (Z.of_nat k) = Ok (x / frac_of_Z (slots n k))%Qc.
Proof.
  intros H. unfold at_index. rewrite Nat2Z.id, level_values_spec, nth_error_map, (nth_error_nth' _ O) by (rewrite seq_length; lia).
  rewrite seq_nth by lia. reflexivity.
Qed.

(** ** Counting *)
Lemma under_0 n m : under n m 0 = 2 ^ Z.of_nat n * 3 ^ Z.of_nat m.
Proof. rewrite <- (slots_under n m 0) by lia. rewrite slots_0. lia. Qed.
Definition n_at (n m : nat) (l : Z) (k : nat) : Z := slots n k - l / under n m k.
Lemma n_at_nonneg n m l k : 0 <= l <= 2 ^ Z.of_nat n * 3 ^ Z.of_nat m -> (k <= n + m)%nat -> 0 <= n_at n m l k.
Proof.
  intros Hl Hk. unfold n_at. pose proof (under_pos n m k). pose proof (slots_under n m k Hk). 
  assert (l / under n m k <= slots n k) by (apply Z.div_le_upper_bound; nia). lia.
Qed.
Lemma n_at_step n m l k : (0 < k)%nat -> cut_at n m l k + n_at n m l k = radix n k * n_at n m l (k - 1).
Proof.
  intros H. destruct k as [|k]; [lia|]. cbn [cut_at]. replace (S k - 1)%nat with k by lia. unfold n_at. rewrite slots_S. ring.
Qed.
Lemma n_at_0 n m l : 0 <= l < 2 ^ Z.of_nat n * 3 ^ Z.of_nat m -> n_at n m l 0 = 1.
Proof. intros Hl. unfold n_at. rewrite slots_0, Z.div_small; [lia|]. rewrite under_0. exact Hl. Qed.
Lemma slots_bottom n m : slots n (n + m) = 2 ^ Z.of_nat n * 3 ^ Z.of_nat m.
Proof. pose proof (slots_under n m (n + m) ltac:(lia)) as H. rewrite under_bottom in H. lia. Qed.
Lemma n_at_bottom n m l : n_at n m l (n + m) = 2 ^ Z.of_nat n * 3 ^ Z.of_nat m - l.
Proof. unfold n_at. rewrite slots_bottom, under_bottom, Z.div_1_r. reflexivity. Qed.

(** the cuts account for all of [l] *)
Lemma cut_total n m l j : (j <= n + m)%nat -> 0 <= l < 2 ^ Z.of_nat n * 3 ^ Z.of_nat m ->
  zsum (map (fun k => cut_at n m l k * under n m k) (seq 1 j)) = l / under n m j * under n m j.
Proof.
  intros Hj Hl. induction j as [|j IH].
  - cbn [seq map zsum fold_right]. rewrite Z.div_small; [lia|]. rewrite under_0. exact Hl.
  - rewrite seq_S, map_app, zsum_app, IH by lia. cbn [Nat.add map zsum fold_right cut_at]. rewrite (under_S n m j) by lia. ring.
Qed.

Lemma removelast_map {A B} (f : A -> B) l : removelast (map f l) = map f (removelast l).
Proof. induction l as [|x [|y l] IH]; [reflexivity|reflexivity|]. cbn [map removelast] in *. f_equal. exact IH. Qed.
Lemma inner_floor_levels n m l : inner_floor l (chain n m) = zsum (map (fun k => l / under n m k) (seq 0 (n + m))).
Proof.
  unfold inner_floor. rewrite <- (map_map leaves (fun z => l / z)), <- removelast_map, leaves_chain, seq_S, map_app. cbn [Nat.add map].
  rewrite removelast_last, map_map. reflexivity.
Qed.
Lemma chain_head n m : exists r, chain n m = full n m :: r.
Proof. apply chain_cons. Qed.
Lemma splitters_levels n m : splitters (full n m) = zsum (map (fun k => slots n k) (seq 0 (n + m))).
Proof.
  destruct (chain_head n m) as (r & E). pose proof (good_full n m) as G. rewrite E in G. rewrite <- (inner_floor_full r (full n m) G), <- E, inner_floor_levels, leaves_full.
  f_equal. apply map_ext_in. intros k Hk. apply in_seq in Hk. rewrite <- (slots_under n m k) by lia. apply Z.div_mul. pose proof (under_pos n m k). lia.
Qed.
Lemma zsum_sub {A} (f g : A -> Z) l : zsum (map (fun x => f x - g x) l) = zsum (map f l) - zsum (map g l).
Proof. induction l as [|x l IH]; [reflexivity|]. cbn [map]. rewrite !zsum_cons, IH. lia. Qed.
Lemma splitters_saved n m l : 0 <= l -> zsum (map (n_at n m l) (seq 0 (n + m))) = splitters (full n m) - total_splitters (gparts l (chain n m)).
Proof.
  intros Hl. rewrite gparts_splitters by (auto using good_full). rewrite inner_floor_levels, splitters_levels. unfold n_at. apply (zsum_sub (slots n) (fun k => l / under n m k)).
Qed.

Lemma fold_res_map {A B C} (f : A -> B -> res A) (g : C -> B) l st : fold_res f (map g l) st = fold_res (fun a c => f a (g c)) l st.
Proof. revert st. induction l as [|x l IH]; intros st; [reflexivity|]. cbn [map fold_res]. destruct (f st (g x)); [apply IH|reflexivity]. Qed.
Lemma fold_res_ext {A B} (f g : A -> B -> res A) l : (forall a x, In x l -> f a x = g a x) -> forall st, fold_res f l st = fold_res g l st.
Proof.
  induction l as [|x l IH]; intros E st; [reflexivity|]. cbn [fold_res]. rewrite E by (left; reflexivity). destruct (g st x); [|reflexivity].
  cbn [bind]. apply IH. intros a' y Hy. apply E. right. exact Hy.
Qed.

(** ** expand_divide *)
Definition divide_fams (n m : nat) (l : Z) (loop_node a : nat) (k : nat) : list (nat * Z) :=
  [(if (k <=? n)%nat then loop_node else a, cut_at n m l k)].
Lemma divide_levels n m l lb v lvl loop_node a orig h cur :
  (forall k, (k <= n + m)%nat -> lb_get lb (level_key n k) = (cut_at n m l k, under_cut n m l k)) ->
  (do st <- fold_res (divide_bin n m lb (level_values v n m) lvl loop_node orig) (seq 1 n) (h, cur);
   fold_res (divide_ter n m lb (level_values v n m) lvl a orig) (seq 1 m) st)
  = fold_res (tree_level n (n + m) (divide_fams n m l loop_node a) (n_at n m l) (fun k => (v / frac_of_Z (slots n k))%Qc) lvl (- Z.of_nat (n + m)) orig orig)
      (seq 1 (n + m)) (h, cur).
Proof.
  intros LB. rewrite seq_app, fold_res_app.
  assert (LV : forall r w cut ign b v' lvl' lta t h cur, divide_level r w cut ign b v' lvl' lta t orig cur h
    = do (h, new) <- (if b then do h <- relink r (total [(t, cut)]) cur orig h; Ok (h, orig) else grow r (total [(t, cut)]) cur v' lvl' lta (w - (cut + ign)) h);
      do h <- reroute_fams r 0 cur [(t, cut)] h; Ok (h, new)).
  { intros. unfold divide_level, total. cbn [map snd zsum fold_right]. rewrite Z.add_0_r. destruct b.
    - destruct (relink _ _ _ _ _); [|reflexivity]. cbn [bind reroute_fams]. destruct (reroute _ _ _ _ _ _); reflexivity.
    - destruct (grow _ _ _ _ _ _ _ _) as [[h2 new]|]; [|reflexivity]. cbn [bind reroute_fams]. destruct (reroute _ _ _ _ _ _); reflexivity. }
  assert (B : forall st i, In i (seq 1 n) -> divide_bin n m lb (level_values v n m) lvl loop_node orig st i =
     tree_level n (n + m) (divide_fams n m l loop_node a) (n_at n m l) (fun k => (v / frac_of_Z (slots n k))%Qc) lvl (- Z.of_nat (n + m)) orig orig st i).
  { intros [h1 cur1] i Hi. apply in_seq in Hi. unfold divide_bin. pose proof (LB i ltac:(lia)) as G. unfold level_key in G. rewrite Nat.min_l in G by lia.
    replace (i - n)%nat with O in G by lia. rewrite G. rewrite level_values_at by lia. cbn [bind]. rewrite LV. unfold tree_level, divide_fams, radix.
    rewrite (proj2 (Nat.leb_le i n)) by lia. 
    replace (negb ((i <? n)%nat || negb (m =? 0)%nat)) with (i =? n + m)%nat
      by (destruct (Nat.eqb_spec i (n + m)), (Nat.ltb_spec i n), (Nat.eqb_spec m 0); cbn; lia).
    rewrite cut_under. unfold n_at, slots. rewrite Nat.min_l by lia. replace (i - n)%nat with O by lia. change (3 ^ Z.of_nat 0) with 1. rewrite Z.mul_1_r. reflexivity. }
  assert (T : forall st i, In i (seq 1 m) -> divide_ter n m lb (level_values v n m) lvl a orig st i =
     tree_level n (n + m) (divide_fams n m l loop_node a) (n_at n m l) (fun k => (v / frac_of_Z (slots n k))%Qc) lvl (- Z.of_nat (n + m)) orig orig st (n + i)).
  { intros [h1 cur1] i Hi. apply in_seq in Hi. unfold divide_ter. pose proof (LB (n + i)%nat ltac:(lia)) as G. unfold level_key in G. rewrite Nat.min_r in G by lia.
    replace (n + i - n)%nat with i in G by lia. rewrite G. rewrite level_values_at by lia. cbn [bind]. rewrite LV. unfold tree_level, divide_fams, radix.
    rewrite (proj2 (Nat.leb_gt (n + i) n)) by lia.
    replace (negb (i <? m)%nat) with (n + i =? n + m)%nat
      by (destruct (Nat.eqb_spec (n + i) (n + m)), (Nat.ltb_spec i m); cbn; lia).
    rewrite cut_under. unfold n_at, slots. rewrite Nat.min_r by lia. replace (n + i - n)%nat with i by lia. reflexivity. }
  rewrite (fold_res_ext _ _ _ B). destruct (fold_res (tree_level _ _ _ _ _ _ _ _ _) (seq 1 n) (h, cur)) as [st|]; [|reflexivity]. cbn [bind].
  rewrite (fold_res_ext _ _ _ T). 
  replace (seq (1 + n) m) with (map (fun i => (n + i)%nat) (seq 1 m)); [rewrite fold_res_map; reflexivity|].
  clear. rewrite Nat.add_comm. generalize 1%nat. induction m as [|m IH]; intros j; [reflexivity|]. cbn [seq map]. f_equal. rewrite IH. f_equal. lia.
Qed.

Definition all_pairs (x y : nat) : Prop := True.
Lemma linked_nil h : linked_but all_pairs [] h <-> links_agree h.
Proof.
  unfold linked_but, links_agree. split; intros L x y; specialize (L x y); destruct (in_dec Nat.eq_dec y []) as [[]|]; [exact (L I)|intros _; exact L].
Qed.
Lemma linked_clear D h a : (a < length h)%nat -> linked_but D [] h -> (forall c, In c (kids h a) -> pars h c = [a]) ->
  linked_but D (kids h a) (upd a (set_children []) h).
Proof.
  intros Ha L0 P x y HD. pose proof (L0 x y HD) as L. destruct (in_dec Nat.eq_dec y []) as [[]|_].
  assert (PY : pars (upd a (set_children []) h) y = pars h y).
  { destruct (Nat.eq_dec a y) as [->|N]; [rewrite get_upd_same by exact Ha|rewrite get_upd_other by exact N]; reflexivity. }
  rewrite PY. destruct (Nat.eq_dec a x) as [->|N].
  - rewrite get_upd_same by exact Ha. cbn [n_children set_children count_occ]. destruct (in_dec Nat.eq_dec y (kids h x)) as [I|I]; [reflexivity|].
    rewrite <- L. symmetry. apply count_occ_not_In. exact I.
  - rewrite get_upd_other by exact N. rewrite L. destruct (in_dec Nat.eq_dec y (kids h a)) as [I|I]; [|reflexivity].
    rewrite P by exact I. cbn [count_occ]. destruct (Nat.eq_dec a x); [contradiction|reflexivity].
Qed.
Lemma links_range h a c : links_agree h -> In c (kids h a) -> (c < length h)%nat.
Proof.
  intros L I. destruct (Nat.lt_ge_cases c (length h)) as [B|B]; [exact B|]. apply (count_occ_In Nat.eq_dec) in I. rewrite L, (get_beyond h c) in I by exact B. cbn in I. lia.
Qed.

(** links from one node to several *)
Lemma fold_links p : forall cs (h : heap Qc), (p < length h)%nat -> (forall c, In c cs -> (c < length h)%nat) ->
  let h' := fold_left (fun h c => upd c (add_parent p) (upd p (add_child c) h)) cs h in
  length h' = length h /\ effect h h' (fun x => if (p =? x)%nat then cs else []) (fun x ps => ps ++ repeat p (cnt x cs)) /\
  (links_agree h -> links_agree h').
Proof.
  induction cs as [|c cs IH]; intros h Hp Hc; cbn [fold_left].
  - split; [reflexivity|]. split; [|tauto]. eapply effect_ext; [apply effect_refl| |]; cbn beta.
    + intros x _. destruct (p =? x)%nat; reflexivity.
    + intros x _. cbn. rewrite app_nil_r. reflexivity.
  - pose proof (Hc c (or_introl eq_refl)) as Hcl. set (h1 := upd c _ _). assert (L1 : length h1 = length h) by (unfold h1; rewrite !upd_length; reflexivity).
    destruct (IH h1) as (L & E & LK); [lia|intros d Hd; rewrite L1; apply Hc; right; exact Hd|]. cbn zeta in *. set (h' := fold_left _ cs h1) in *.
    split; [lia|]. split.
    + eapply effect_ext; [eapply effect_trans; [apply (effect_link h p c (fun ps => ps ++ [p]) Hp Hcl)|exact E]| |]; cbn beta.
      * intros x _. destruct (p =? x)%nat; reflexivity.
      * intros x _. cbn [count_occ]. destruct (Nat.eq_dec c x) as [->|N]; [rewrite Nat.eqb_refl; cbn [repeat]; rewrite <- app_assoc; reflexivity|].
        destruct (Nat.eqb_spec c x); [contradiction|reflexivity].
    + intros LA. apply LK. apply (proj1 (linked_nil _)). unfold h1. apply linked_link; [exact Hp|exact Hcl|intros []|apply (proj2 (linked_nil _)); exact LA].
Qed.

(** tag_merge only adds a tag *)
Lemma tag_merge_get t h b x : (b < length h)%nat ->
  get (tag_merge t h b) x = if ((b =? x)%nat && (t <? Z.of_nat (length (pars h b))))%bool then add_tag (TMerge t) (get h x) else get h x.
Proof.
  intros Hb. unfold tag_merge. destruct (t <? Z.of_nat (length (pars h b))); [|rewrite andb_false_r; reflexivity]. rewrite andb_true_r.
  destruct (Nat.eqb_spec b x) as [->|N]; [apply get_upd_same; exact Hb|apply get_upd_other; exact N].
Qed.
Lemma tag_merge_length t h b : length (tag_merge t h b) = length h.
Proof. unfold tag_merge. destruct (t <? _); [apply upd_length|reflexivity]. Qed.
Lemma tag_merge_fields t h b x : (b < length h)%nat ->
  kids (tag_merge t h b) x = kids h x /\ pars (tag_merge t h b) x = pars h x /\ n_value (get (tag_merge t h b) x) = n_value (get h x) /\
  n_level (get (tag_merge t h b) x) = n_level (get h x).
Proof. intros Hb. rewrite tag_merge_get by exact Hb. destruct (_ && _); auto. Qed.
Lemma tag_merge_links t h b : (b < length h)%nat -> links_agree h -> links_agree (tag_merge t h b).
Proof. intros Hb L x y. destruct (tag_merge_fields t h b x Hb) as (-> & _). destruct (tag_merge_fields t h b y Hb) as (_ & -> & _). apply L. Qed.

Lemma find_n_m_l_positive d n m l s : 2 <= d -> find_n_m_l d = Ok (n, m, l, s) ->
  0 <= l /\ d + l = 2 ^ Z.of_nat n * 3 ^ Z.of_nat m /\ (0 < n + m)%nat /\ s = splitters (full n m).
Proof.
  intros Hd E. destruct (find_n_m_l_spec d ltac:(lia)) as (n0 & m0 & l0 & s0 & E0 & Hp & Hl & Hs & _). rewrite E in E0. injection E0 as <- <- <- <-.
  split; [exact Hl|]. split; [lia|]. split; [|rewrite Hs; apply count_splits_spec]. destruct n, m; cbn in Hp; lia.
Qed.

(** the tree built under [a], [t] being the node that gets the loops of binary levels *)
Lemma divide_built h a d lvl n m l s lb t v :
  links_agree h -> divisible h a d lvl -> 2 <= d -> find_n_m_l d = Ok (n, m, l, s) -> (t < length h)%nat -> ~ In t (kids h a) -> (Q2Qc 0 <= v)%Qc ->
  (forall k, (k <= n + m)%nat -> lb_get lb (level_key n k) = (cut_at n m l k, under_cut n m l k)) ->
  exists h', (do st <- fold_res (divide_bin n m lb (level_values v n m) lvl t (kids h a)) (seq 1 n) (upd a (set_children []) h, [a]);
              fold_res (divide_ter n m lb (level_values v n m) lvl a (kids h a)) (seq 1 m) st) = Ok (h', kids h a) /\
    built n (n + m) (divide_fams n m l t a) (n_at n m l) (fun k => (v / frac_of_Z (slots n k))%Qc) lvl (- Z.of_nat (n + m)) (kids h a) (upd a (set_children []) h) a (n + m) h' /\
    links_agree h'.
Proof.
  intros LA D Hd Hf Ht Nt Hv LB. destruct D. destruct (find_n_m_l_positive d n m l s Hd Hf) as (Hl & HW & Hnm & Hs).
  rewrite (divide_levels n m l lb v lvl t a (kids h a) _ _ LB).
  destruct (build n (n + m) (divide_fams n m l t a) (n_at n m l) (fun k => (v / frac_of_Z (slots n k))%Qc) lvl (- Z.of_nat (n + m)) (kids h a) (kids h a) (upd a (set_children []) h) a) as (h' & E & B).
  - rewrite upd_length. exact dv_node.
  - rewrite get_upd_same by exact dv_node. reflexivity.
  - exact Hnm.
  - apply n_at_0. lia.
  - intros k Hk. apply n_at_nonneg; [lia|exact Hk].
  - intros k Hk. unfold total, divide_fams. cbn [map snd zsum fold_right]. rewrite Z.add_0_r. apply n_at_step. lia.
  - intros k. apply negative_false, nonneg_over; [exact Hv|]. pose proof (slots_pos n k). lia.
  - intros k t' c Hk [E|[]]. injection E as <- <-. rewrite upd_length. split; [apply cut_bounds; [exact Hl|lia]|]. destruct (k <=? n)%nat; split; assumption.
  - intros x Hx. rewrite upd_length. apply (links_range h a x LA Hx).
  - exact dv_distinct.
  - rewrite n_at_bottom, dv_count. lia.
  - exact dv_self.
  - exists h'. split; [exact E|]. split; [exact B|]. apply (proj1 (linked_nil _)). pose proof (b_linked _ _ _ _ _ _ _ _ _ _ _ _ B) as LK. rewrite Nat.eqb_refl in LK.
    apply LK. apply linked_clear; [assumption|apply (proj2 (linked_nil _)); exact LA|assumption].
Qed.

(** from [built] to the specification; [hf] differs from [hb] in other things only *)
Lemma built_splitter_tree n m fams N v lvl lta bottom h h0 a hb hf :
  (a < length h0)%nat -> (0 < n + m)%nat -> (forall k, (k <= n + m)%nat -> 0 <= N k) -> (forall x, In x bottom -> (x < length h0)%nat) -> NoDup bottom -> ~ In a bottom ->
  built n (n + m) fams N (fun k => (v / frac_of_Z (slots n k))%Qc) lvl lta bottom h0 a (n + m) hb ->
  (length h <= length h0)%nat -> (length hb <= length hf)%nat ->
  (forall k x, (k < n + m)%nat -> In x (lv (n + m) N bottom h0 a k) -> kids hf x = kids hb x /\ n_value (get hf x) = n_value (get hb x)) ->
  splitter_tree h hf a n m v (lv (n + m) N bottom h0 a) (fun k => loops_of (fams k)).
Proof.
  intros Ha HK HN Hb Nb Ab B Lh Lf Same. constructor.
  - reflexivity.
  - intros k y Hk I. pose proof (b_length _ _ _ _ _ _ _ _ _ _ _ _ B) as LB. rewrite Nat.eqb_refl in LB.
    rewrite (lv_mid (n + m) N bottom h0 a HK k Hk) in I. apply in_seq in I. pose proof (start_ge N h0 k).
    pose proof (start_mono N h0 (S k) (n + m) ltac:(lia)) as M. rewrite start_SS in M by lia. lia.
  - intros k. apply lv_nodup. exact Nb.
  - intros j k y Hjk I J. exact (lv_disjoint (n + m) N bottom h0 a Ha HK Hb Ab j k y Hjk I J).
  - intros k x Hk I. destruct (Same k x Hk I) as (-> & _). apply (b_level _ _ _ _ _ _ _ _ _ _ _ _ B k Hk). exact I.
  - intros k Hk. destruct (b_level _ _ _ _ _ _ _ _ _ _ _ _ B k Hk) as (_ & P & _). etransitivity; [|exact P].
    apply Permutation_flat_map_in. intros x I. destruct (Same k x Hk I) as (-> & _). apply Permutation_refl.
  - intros k y Hk I. destruct (Same k y ltac:(lia) I) as (_ & ->). apply (b_fresh _ _ _ _ _ _ _ _ _ _ _ _ B k y Hk ltac:(lia) I).
Qed.

Lemma node_eta (n n' : node Qc) : same_rest n n' -> n_children n' = n_children n -> n' = set_parents (n_parents n') n.
Proof. destruct n, n'. unfold same_rest. cbn. intros (-> & -> & -> & -> & -> & ->) ->. reflexivity. Qed.
Lemma above_limit_spec x : above_limit x = false <-> (x <= frac_of_Z conveyor_speed_limit)%Qc.
Proof. unfold above_limit. rewrite Qgt_bool_false. unfold Qcle. cbn [this frac_of_Z Q2Qc]. rewrite Qred_correct. reflexivity. Qed.

(** the number of looping branches, level by level *)
Lemma gcount_cuts n m : forall j i l, (i + j = n + m)%nat -> 0 <= l ->
  gcount l (map (under n m) (seq i (S j))) = l / under n m i + zsum (map (cut_at n m l) (seq (S i) j)).
Proof.
  induction j as [|j IH]; intros i l Hi Hl.
  - cbn [seq map gcount zsum fold_right]. reflexivity.
  - change (seq i (S (S j))) with (i :: seq (S i) (S j)). cbn [map gcount]. f_equal. pose proof (under_pos n m i) as P.
    pose proof (Z.mod_pos_bound l (under n m i) ltac:(lia)) as MB. rewrite IH by lia. cbn [seq map]. rewrite zsum_cons. f_equal.
    + cbn [cut_at]. pose proof (under_pos n m (S i)). rewrite (under_S n m i) by lia. pose proof (radix_pos n (S i)).
      set (r := radix n (S i)) in *. set (u := under n m (S i)) in *. rewrite Z.mod_eq by nia.
      replace (l - r * u * (l / (r * u))) with (l + (- r * (l / (r * u))) * u) by ring. rewrite Z.div_add by lia. lia.
    + f_equal. apply map_ext_in. intros k Hk. apply in_seq in Hk. destruct k as [|k]; [lia|]. cbn [cut_at].
      assert (Q : forall k', (i <= k' <= n + m)%nat -> exists q, under n m i = q * under n m k') by (intros; apply under_ratio; lia).
      destruct (Q k ltac:(lia)) as (q & Eq). pose proof (under_pos n m (S k)). pose proof (under_pos n m k).
      assert (Eq2 : under n m i = q * radix n (S k) * under n m (S k)) by (rewrite Eq, (under_S n m k) by lia; ring).
      rewrite (Z.mod_eq l (under n m i)) by lia. set (z := l / under n m i).
      replace ((l - under n m i * z) / under n m (S k)) with (l / under n m (S k) - q * radix n (S k) * z)
        by (rewrite Eq2; replace (l - q * radix n (S k) * under n m (S k) * z) with (l + (- (q * radix n (S k) * z)) * under n m (S k)) by ring; rewrite Z.div_add by lia; lia).
      replace ((l - under n m i * z) / under n m k) with (l / under n m k - q * z)
        by (rewrite Eq; replace (l - q * under n m k * z) with (l + (- (q * z)) * under n m k) by ring; rewrite Z.div_add by lia; lia).
      ring.
Qed.
Lemma branch_count n m l nb ns : 0 <= l < 2 ^ Z.of_nat n * 3 ^ Z.of_nat m ->
  compute_n_looping_branches l (compute_splitters_count n m) (compute_branches_count n m) = Ok (nb, ns) ->
  nb = zsum (map (cut_at n m l) (seq 1 (n + m))) /\ ns = total_splitters (gparts l (chain n m)).
Proof.
  intros Hl E. rewrite n_looping_branches_spec in E by lia. injection E as <- <-. split; [|reflexivity].
  rewrite gparts_length by (auto using dchain_chain; lia). rewrite leaves_chain, gcount_cuts by lia. rewrite Z.div_small; [lia|]. rewrite under_0. exact Hl.
Qed.

Lemma foz_zsum {A} (f : A -> Z) (q : Qc) l : qcsum (map (fun k => (frac_of_Z (f k) * q)%Qc) l) = (frac_of_Z (zsum (map f l)) * q)%Qc.
Proof.
  induction l as [|x l IH]; cbn [map qcsum fold_right zsum]; [rewrite foz_0; ring|]. fold (qcsum (map (fun k => (frac_of_Z (f k) * q)%Qc) l)). rewrite IH.
  fold (zsum (map f l)). rewrite foz_plus. ring.
Qed.
Lemma loops_flow n m l flow loops t : 0 <= l < 2 ^ Z.of_nat n * 3 ^ Z.of_nat m ->
  (forall k, (0 < k <= n + m)%nat -> Z.of_nat (count_occ Nat.eq_dec (loops k) t) = cut_at n m l k) ->
  flow_to t n m flow loops = (frac_of_Z l * (flow / frac_of_Z (2 ^ Z.of_nat n * 3 ^ Z.of_nat m)))%Qc.
Proof.
  intros Hl Hc. unfold flow_to. pose proof (cut_total n m l (n + m) ltac:(lia) Hl) as CT. rewrite under_bottom, Z.div_1_r, Z.mul_1_r in CT. rewrite <- CT at 1. rewrite <- foz_zsum.
  f_equal. apply map_ext_in. intros k Hk. apply in_seq in Hk. rewrite Hc by lia. rewrite <- (slots_under n m k) by lia. rewrite !foz_mult.
  pose proof (slots_pos n k). pose proof (under_pos n m k). field. split; apply foz_neq0; lia.
Qed.

Lemma divide_loops_length n m l t a k : 0 <= l -> (k <= n + m)%nat -> Z.of_nat (length (loops_of (divide_fams n m l t a k))) = cut_at n m l k.
Proof.
  intros Hl Hk. unfold loops_of, divide_fams. cbn [flat_map fst snd]. rewrite app_nil_r, repeat_length. destruct (cut_bounds n m l k Hl Hk). lia.
Qed.
Lemma divide_loops_cnt n m l a k : 0 <= l -> (k <= n + m)%nat -> Z.of_nat (cnt a (loops_of (divide_fams n m l a a k))) = cut_at n m l k.
Proof.
  intros Hl Hk. unfold loops_of, divide_fams. cbn [flat_map fst snd]. rewrite app_nil_r. replace (if (k <=? n)%nat then a else a) with a by (destruct (k <=? n)%nat; reflexivity).
  rewrite count_occ_repeat_eq by reflexivity. destruct (cut_bounds n m l k Hl Hk). lia.
Qed.
Lemma flat_loops_length n m l t a : 0 <= l -> forall j, (j <= n + m)%nat ->
  Z.of_nat (length (flat_map (fun k => loops_of (divide_fams n m l t a k)) (seq 1 j))) = zsum (map (cut_at n m l) (seq 1 j)).
Proof.
  intros Hl. induction j as [|j IH]; intros Hj; [reflexivity|]. rewrite seq_S, flat_map_app, app_length, map_app, zsum_app, Nat2Z.inj_add, IH by lia.
  cbn [Nat.add flat_map map zsum fold_right]. rewrite app_nil_r, divide_loops_length by lia. lia.
Qed.
Lemma cnt_all x l : (forall y, In y l -> y = x) -> cnt x l = length l.
Proof. induction l as [|y l IH]; intros H; [reflexivity|]. cbn [count_occ length]. rewrite (H y) by (left; reflexivity). destruct (Nat.eq_dec x x); [|contradiction]. f_equal. apply IH. intros z Hz. apply H. right. exact Hz. Qed.
Lemma divide_loops_in n m l t a k x : In x (loops_of (divide_fams n m l t a k)) -> x = if (k <=? n)%nat then t else a.
Proof. unfold loops_of, divide_fams. cbn [flat_map fst snd]. rewrite app_nil_r. intros I. apply repeat_spec in I. exact I. Qed.

Lemma count_levels n m N bottom h0 a : (0 < n + m)%nat -> N O = 1 -> (forall k, (k <= n + m)%nat -> 0 <= N k) -> Z.of_nat (length bottom) = N (n + m)%nat ->
  splitter_count n m (lv (n + m) N bottom h0 a) = zsum (map N (seq 0 (n + m))).
Proof.
  intros H H0 HN HB. unfold splitter_count. f_equal. apply map_ext_in. intros k Hk. apply in_seq in Hk. apply lv_length; auto. lia.
Qed.

Section Divide.
Variables (h : heap Qc) (a : nat) (d lvl : Z) (n m : nat) (l s : Z).
Hypothesis LA : links_agree h.
Hypothesis D : divisible h a d lvl.
Hypothesis Hd : 2 <= d.
Hypothesis Hf : find_n_m_l d = Ok (n, m, l, s).
Let value := n_value (get h a).
Let back := (frac_of_Z l * value / frac_of_Z d)%Qc.
Let flow := (value + back)%Qc.

Lemma divide_flow : (flow / frac_of_Z (2 ^ Z.of_nat n * 3 ^ Z.of_nat m))%Qc = (value / frac_of_Z d)%Qc.
Proof.
  destruct (find_n_m_l_positive d n m l s Hd Hf) as (Hl & HW & _). rewrite <- HW, foz_plus. unfold flow, back.
  assert (frac_of_Z d + frac_of_Z l <> Q2Qc 0)%Qc by (rewrite <- foz_plus; apply foz_neq0; lia). field. split; [apply foz_neq0; lia|assumption].
Qed.
Lemma flow_nonneg : (Q2Qc 0 <= back)%Qc /\ (Q2Qc 0 <= flow)%Qc.
Proof.
  destruct (find_n_m_l_positive d n m l s Hd Hf) as (Hl & HW & _). destruct D.
  assert (B : (Q2Qc 0 <= back)%Qc) by (unfold back; apply nonneg_over; [apply nonneg_mult; [apply foz_nonneg; exact Hl|exact dv_value]|lia]).
  split; [exact B|]. apply nonneg_plus; [exact dv_value|exact B].
Qed.

Lemma divide_lemma nb ns :
  compute_n_looping_branches l (compute_splitters_count n m) (compute_branches_count n m) = Ok (nb, ns) ->
  (flow <= frac_of_Z conveyor_speed_limit)%Qc ->
  exists h' levels loops extra, expand_divide h a d = Ok (h', (lvl + 1, Z.of_nat (n + m))) /\
    splitter_tree h h' a n m flow levels loops /\
    levels (n + m)%nat = kids h a /\ (flow / frac_of_Z (slots n (n + m)))%Qc = (value / frac_of_Z d)%Qc /\
    (forall k t, In t (loops k) -> t = a) /\ flow_to a n m flow loops = back /\
    splitter_count n m levels = s - ns /\
    links_agree h' /\ untouched h h' a (kids h a) /\
    pars h' a = pars h a ++ extra /\ Z.of_nat (length extra) = nb /\
    (let threshold := if (length (pars h a) =? 0)%nat then 2 else 3 in
     n_expands (get h' a) = n_expands (get h a) ++ (if threshold <? Z.of_nat (length (pars h' a)) then [TMerge threshold] else [])).
Proof.
  intros Hb Hlim. destruct (find_n_m_l_positive d n m l s Hd Hf) as (Hl & HW & Hnm & Hs). pose proof D as D'. destruct D'.
  destruct (branch_count n m l nb ns ltac:(lia) Hb) as (Enb & Ens).
  destruct (looping_branches_spec n m (Z.to_nat l) l [] ltac:(lia)) as (lb & Elb & Glb).
  destruct (divide_built h a d lvl n m l s lb a flow LA D Hd Hf dv_node dv_self (proj2 flow_nonneg)) as (hb & Eb & B & Lb).
  { intros k Hk. rewrite Glb by exact Hk. reflexivity. }
  unfold expand_divide. rewrite Hf. cbn [bind]. unfold over. fold value. fold back. fold flow.
  rewrite (proj2 (above_limit_spec flow) Hlim). cbn [bind].
  unfold compute_looping_branches. rewrite Elb. cbn [bind]. unfold level_of. rewrite dv_level. cbn [bind].
  destruct (fold_res (divide_bin _ _ _ _ _ _ _) _ _) as [st|]; [|discriminate Eb]. cbn [bind] in Eb |- *. rewrite Eb. cbn [bind].
  set (thr := if (length (pars h a) =? 0)%nat then 2 else 3). set (h0 := upd a (set_children []) h) in *.
  pose proof (b_length _ _ _ _ _ _ _ _ _ _ _ _ B) as LB. rewrite Nat.eqb_refl in LB.
  assert (L0 : length h0 = length h) by apply upd_length. pose proof (start_ge (n_at n m l) h0 (n + m)) as SG.
  assert (Ab : (a < length hb)%nat) by lia.
  destruct (b_parents _ _ _ _ _ _ _ _ _ _ _ _ B a ltac:(lia) (or_intror dv_self)) as (extra & Ex & Lx & _).
  assert (P0 : forall x, pars h0 x = pars h x).
  { intros x. unfold h0. destruct (Nat.eq_dec a x) as [->|N]; [rewrite get_upd_same by exact dv_node|rewrite get_upd_other by exact N]; reflexivity. }
  exists (tag_merge thr hb a), (lv (n + m) (n_at n m l) (kids h a) h0 a), (fun k => loops_of (divide_fams n m l a a k)), extra.
  assert (LC : forall x, cnt x (flat_map (fun i => loops_of (divide_fams n m l a a i)) (seq 1 (n + m))) = if (a =? x)%nat then Z.to_nat nb else 0%nat).
  { intros x. destruct (Nat.eqb_spec a x) as [->|N].
    - rewrite cnt_all; [rewrite Enb, <- (flat_loops_length n m l x x Hl (n + m)) by lia; lia|].
      intros y I. apply in_flat_map in I. destruct I as (k & _ & I). apply divide_loops_in in I. destruct (k <=? n)%nat; exact I.
    - apply count_occ_not_In. intros I. apply in_flat_map in I. destruct I as (k & _ & I). apply divide_loops_in in I. destruct (k <=? n)%nat; congruence. }
  assert (NB0 : 0 <= nb).
  { rewrite Enb, <- (flat_loops_length n m l a a Hl (n + m)) by lia. lia. }
  split; [reflexivity|]. split; [|split; [|split; [|split; [|split; [|split; [|split; [|split; [|split; [|split]]]]]]]]].
  - apply (built_splitter_tree n m (divide_fams n m l a a) (n_at n m l) flow lvl (- Z.of_nat (n + m)) (kids h a) h h0 a hb); try assumption; try lia.
    + intros k Hk. apply n_at_nonneg; [lia|exact Hk].
    + intros x Hx. rewrite L0. apply (links_range h a x LA Hx).
    + rewrite tag_merge_length. lia.
    + intros k x _ _. destruct (tag_merge_fields thr hb a x Ab) as (-> & _ & -> & _). auto.
  - apply lv_K. exact Hnm.
  - rewrite slots_bottom. apply divide_flow.
  - intros k t I. apply divide_loops_in in I. destruct (k <=? n)%nat; exact I.
  - rewrite (loops_flow n m l) by (lia || (intros; apply divide_loops_cnt; lia)). rewrite divide_flow. unfold back. field. apply foz_neq0. lia.
  - rewrite count_levels; [rewrite splitters_saved by exact Hl; rewrite Hs, Ens; reflexivity|exact Hnm|apply n_at_0; lia| |rewrite n_at_bottom, dv_count; lia].
    intros k Hk. apply n_at_nonneg; [lia|exact Hk].
  - apply tag_merge_links; assumption.
  - intros x Hx Nx. rewrite tag_merge_get by exact Ab. rewrite (proj2 (Nat.eqb_neq a x)) by (intros ->; contradiction). cbn [andb].
    destruct (b_rest _ _ _ _ _ _ _ _ _ _ _ _ B x ltac:(lia)) as (R & RK). specialize (RK Nx). unfold h0 in R, RK. rewrite get_upd_other in R, RK by (intros ->; contradiction).
    exists (pars hb x). split; [apply node_eta; assumption|]. intros Nk.
    destruct (b_parents _ _ _ _ _ _ _ _ _ _ _ _ B x ltac:(lia) (or_intror Nk)) as (ex & E2 & L2 & _). rewrite LC in L2. rewrite (proj2 (Nat.eqb_neq a x)) in L2 by (intros ->; contradiction).
    destruct ex; [|discriminate]. rewrite E2, app_nil_r. apply P0.
  - destruct (tag_merge_fields thr hb a a Ab) as (_ & -> & _). rewrite Ex, P0. reflexivity.
  - rewrite Lx, LC, Nat.eqb_refl. lia.
  - cbn zeta. fold thr. destruct (tag_merge_fields thr hb a a Ab) as (_ & -> & _). rewrite tag_merge_get by exact Ab. rewrite Nat.eqb_refl. cbn [andb].
    destruct (b_rest _ _ _ _ _ _ _ _ _ _ _ _ B a ltac:(lia)) as ((_ & _ & _ & _ & R5 & _) & _).
    assert (X0 : n_expands (get h0 a) = n_expands (get h a)) by (unfold h0; rewrite get_upd_same by exact dv_node; reflexivity).
    destruct (thr <? _); [cbn [n_expands add_tag set_expands]; rewrite R5, X0; reflexivity|rewrite R5, X0, app_nil_r; reflexivity].
Qed.

Lemma divide_overload_lemma nb ns :
  compute_n_looping_branches l (compute_splitters_count n m) (compute_branches_count n m) = Ok (nb, ns) ->
  ~ (flow <= frac_of_Z conveyor_speed_limit)%Qc ->
  exists h' levels loops, let extra := length h in expand_divide h a d = Ok (h', (lvl + 1, Z.of_nat (n + m))) /\
    splitter_tree h h' a n m flow levels loops /\
    levels (n + m)%nat = kids h a /\ (flow / frac_of_Z (slots n (n + m)))%Qc = (value / frac_of_Z d)%Qc /\
    (forall k t, In t (loops k) -> t = if (k <=? n)%nat then extra else a) /\
    Z.of_nat (length (flat_map loops (seq 1 (n + m)))) = nb /\
    splitter_count n m levels = s - ns /\
    links_agree h' /\
    kids h' extra = kids h' a /\ n_value (get h' extra) = back /\ n_level (get h' extra) = None.
Proof.
  intros Hb Hlim. destruct (find_n_m_l_positive d n m l s Hd Hf) as (Hl & HW & Hnm & Hs). pose proof D as D'. destruct D'.
  destruct (branch_count n m l nb ns ltac:(lia) Hb) as (Enb & Ens).
  destruct (looping_branches_spec n m (Z.to_nat l) l [] ltac:(lia)) as (lb & Elb & Glb).
  destruct (new_ok h back None 0 (proj2 (negative_false _) (proj1 flow_nonneg))) as (h1 & E1). destruct (effect_new _ _ _ _ _ _ E1) as (_ & L1 & EF1 & G1).
  assert (S1 : forall x, (x < length h)%nat -> get h1 x = get h x).
  { intros x Hx. destruct EF1 as [_ EF1]. rewrite EF1 by exact Hx. rewrite app_nil_r. apply relinked_id. }
  assert (LA1 : links_agree h1) by (apply (proj1 (linked_nil _)); eapply linked_new; [exact E1|apply (proj2 (linked_nil _)); exact LA]).
  assert (K1 : kids h1 a = kids h a) by (rewrite S1 by exact dv_node; reflexivity).
  assert (D1 : divisible h1 a d lvl).
  { constructor; rewrite ?K1, ?(S1 a dv_node); try assumption; [lia|]. intros c Hc. rewrite S1 by (apply (links_range h a c LA Hc)). apply dv_parents, Hc. }
  assert (NT : ~ In (length h) (kids h1 a)) by (rewrite K1; intros I; apply (links_range h a _ LA) in I; lia).
  destruct (divide_built h1 a d lvl n m l s lb (length h) flow LA1 D1 Hd Hf ltac:(lia) NT (proj2 flow_nonneg)) as (hb & Eb & B & Lb).
  { intros k Hk. rewrite Glb by exact Hk. reflexivity. }
  unfold expand_divide. rewrite Hf. cbn [bind]. unfold over. fold value. fold back. fold flow.
  assert (AL : above_limit flow = true) by (destruct (above_limit flow) eqn:E; [reflexivity|]; apply above_limit_spec in E; contradiction).
  rewrite AL, E1. cbn [bind].
  unfold compute_looping_branches. rewrite Elb. cbn [bind]. unfold level_of.
  assert (LV1 : n_level (get h1 a) = Some lvl) by (rewrite (S1 a dv_node); exact dv_level). rewrite LV1. cbn [bind].
  destruct (fold_res (divide_bin _ _ _ _ _ _ _) _ _) as [st|]; [|discriminate Eb]. cbn [bind] in Eb |- *. rewrite Eb. cbn [bind].
  set (thr := if (length (pars h1 (length h)) =? 0)%nat then 2 else 3). set (h0 := upd a (set_children []) h1) in *.
  pose proof (b_length _ _ _ _ _ _ _ _ _ _ _ _ B) as LB. rewrite Nat.eqb_refl in LB.
  assert (L0 : length h0 = length h1) by apply upd_length. pose proof (start_ge (n_at n m l) h0 (n + m)) as SG.
  set (t := length h) in *. assert (Tb : (t < length hb)%nat) by lia.
  destruct (fold_links t (kids hb a) hb Tb (fun c Hc => links_range hb a c Lb Hc)) as (Lc & EC & LKc). fold (share_children hb a t) in Lc, EC, LKc.
  set (hc := share_children hb a t) in *. destruct EC as [_ EC].
  assert (KC : forall x, x <> t -> kids hc x = kids hb x).
  { intros x Nx. destruct (Nat.lt_ge_cases x (length hb)) as [Bx|Bx].
    - rewrite EC by exact Bx. rewrite relinked_kids. rewrite (proj2 (Nat.eqb_neq t x)) by (intros ->; contradiction). apply app_nil_r.
    - rewrite !get_beyond by lia. reflexivity. }
  assert (VC : forall x, n_value (get hc x) = n_value (get hb x) /\ n_level (get hc x) = n_level (get hb x)).
  { intros x. destruct (Nat.lt_ge_cases x (length hb)) as [Bx|Bx]; [rewrite EC by exact Bx; split; reflexivity|rewrite !get_beyond by lia; split; reflexivity]. }
  assert (Tc : (t < length hc)%nat) by lia.
  exists (tag_merge thr hc t), (lv (n + m) (n_at n m l) (kids h1 a) h0 a), (fun k => loops_of (divide_fams n m l t a k)).
  assert (NN : forall k, (k <= n + m)%nat -> 0 <= n_at n m l k) by (intros k Hk; apply n_at_nonneg; [lia|exact Hk]).
  destruct (b_rest _ _ _ _ _ _ _ _ _ _ _ _ B t ltac:(lia)) as ((R1 & R2 & R3 & R4 & R5 & R6) & RK).
  assert (Nta : t <> a) by (intros E; rewrite <- E in dv_node; lia).
  unfold h0 in R1, R3, RK. rewrite get_upd_other in R1, R3, RK by congruence. specialize (RK Nta). rewrite G1 in R1, R3, RK. cbn [n_value n_level n_children] in R1, R3, RK.
  assert (KT : kids hc t = kids hb a).
  { rewrite EC by exact Tb. rewrite relinked_kids, Nat.eqb_refl, RK. reflexivity. }
  split; [reflexivity|]. split; [|split; [|split; [|split; [|split; [|split; [|split; [|split; [|split]]]]]]]].
  - apply (built_splitter_tree n m (divide_fams n m l t a) (n_at n m l) flow lvl (- Z.of_nat (n + m)) (kids h1 a) h h0 a hb); try assumption; try lia.
    + intros x Hx. rewrite L0. apply (links_range h1 a x LA1 Hx).
    + rewrite K1. exact dv_distinct.
    + rewrite K1. exact dv_self.
    + rewrite tag_merge_length. lia.
    + intros k x Hk I. destruct (tag_merge_fields thr hc t x Tc) as (-> & _ & -> & _). destruct (VC x) as [-> _]. split; [|reflexivity]. apply KC.
      intros ->. apply (lv_old (n + m) (n_at n m l) (kids h1 a) h0 a) in I; [contradiction|lia|exact Hk|lia].
  - rewrite lv_K by exact Hnm. exact K1.
  - rewrite slots_bottom. apply divide_flow.
  - intros k x I. apply divide_loops_in in I. exact I.
  - rewrite Enb. apply flat_loops_length; lia.
  - rewrite count_levels; [rewrite splitters_saved by exact Hl; rewrite Hs, Ens; reflexivity|exact Hnm|apply n_at_0; lia|exact NN|rewrite n_at_bottom, K1, dv_count; lia].
  - apply tag_merge_links; [exact Tc|]. apply LKc, Lb.
  - destruct (tag_merge_fields thr hc t t Tc) as (-> & _). destruct (tag_merge_fields thr hc t a Tc) as (-> & _). rewrite KT. symmetry. apply KC. congruence.
  - destruct (tag_merge_fields thr hc t t Tc) as (_ & _ & -> & _). destruct (VC t) as [-> _]. exact R1.
  - destruct (tag_merge_fields thr hc t t Tc) as (_ & _ & _ & ->). destruct (VC t) as [_ ->]. exact R3.
Qed.
End Divide.
