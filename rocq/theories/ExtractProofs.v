(** expand_extract (Expand.v) builds a regular splitter tree. *)
From Verif Require Import Base BaseLemmas Cost CostSpec CostProofs Utils Fractions Load Tree TreeSpec FractionsProofs HeapLemmas Expand ExpandSpec BranchProofs LevelProofs BuildProofs ExpandProofs.
From Coq Require Import QArith Qcanon.
Open Scope Z_scope.

Lemma Qred_int x : Qred (x # 1) = x # 1.
Proof. apply (Qred_iff (x # 1)). apply Z.gcd_1_r. Qed.
Lemma as_int_foz x : as_int (frac_of_Z x) = Ok x.
Proof. unfold as_int, denom, numer. change (this (frac_of_Z x)) with (Qred (x # 1)). rewrite Qred_int. reflexivity. Qed.

Definition extract_fams (n m : nat) (l e o : Z) (t ext ovf : nat) (k : nat) : list (nat * Z) :=
  [(t, cut_at n m l k); (ext, cut_at n m e k); (ovf, cut_at n m o k)].
Definition n3_at (n m : nat) (l e o : Z) (k : nat) : Z := slots n k - (l / under n m k + e / under n m k + o / under n m k).

Lemma n3_step n m l e o t ext ovf k : (0 < k)%nat -> total (extract_fams n m l e o t ext ovf k) + n3_at n m l e o k = radix n k * n3_at n m l e o (k - 1).
Proof.
  intros H. destruct k as [|k]; [lia|]. unfold total, extract_fams. cbn [map snd zsum fold_right cut_at]. replace (S k - 1)%nat with k by lia. unfold n3_at. rewrite slots_S. ring.
Qed.
Lemma n3_nonneg n m l e o k : 0 <= l -> 0 <= e -> 0 <= o -> l + e + o = 2 ^ Z.of_nat n * 3 ^ Z.of_nat m -> (k <= n + m)%nat -> 0 <= n3_at n m l e o k.
Proof.
  intros Hl He Ho HW Hk. unfold n3_at. pose proof (under_pos n m k). pose proof (slots_under n m k Hk) as SU. 
  assert (l / under n m k * under n m k <= l) by (rewrite Z.mul_comm; apply Z.mul_div_le; lia).
  assert (e / under n m k * under n m k <= e) by (rewrite Z.mul_comm; apply Z.mul_div_le; lia).
  assert (o / under n m k * under n m k <= o) by (rewrite Z.mul_comm; apply Z.mul_div_le; lia). nia.
Qed.
Lemma n3_0 n m l e o : let W := 2 ^ Z.of_nat n * 3 ^ Z.of_nat m in 0 <= l < W -> 0 <= e < W -> 0 <= o < W -> n3_at n m l e o 0 = 1.
Proof. intros W Hl He Ho. unfold n3_at. rewrite slots_0, under_0. fold W. rewrite !Z.div_small by assumption. lia. Qed.
Lemma n3_bottom n m l e o : l + e + o = 2 ^ Z.of_nat n * 3 ^ Z.of_nat m -> n3_at n m l e o (n + m) = 0.
Proof. intros HW. unfold n3_at. rewrite slots_bottom, under_bottom, !Z.div_1_r. lia. Qed.
Lemma n3_saved n m l e o : 0 <= l -> 0 <= e -> 0 <= o -> zsum (map (n3_at n m l e o) (seq 0 (n + m))) =
  splitters (full n m) - total_splitters (gparts l (chain n m)) - total_splitters (gparts o (chain n m)) - total_splitters (gparts e (chain n m)).
Proof.
  intros Hl He Ho. rewrite !gparts_splitters by (auto using good_full). rewrite !inner_floor_levels, splitters_levels. unfold n3_at.
  generalize (seq 0 (n + m)). induction l0 as [|k ks IH]; [reflexivity|]. cbn [map]. rewrite !zsum_cons, IH. lia.
Qed.

Lemma extract_levels n m l e o lbl lbe lbo v lvl t ext ovf orig h cur :
  (forall k, (k <= n + m)%nat -> lb_get lbl (level_key n k) = (cut_at n m l k, under_cut n m l k)) ->
  (forall k, (k <= n + m)%nat -> lb_get lbe (level_key n k) = (cut_at n m e k, under_cut n m e k)) ->
  (forall k, (k <= n + m)%nat -> lb_get lbo (level_key n k) = (cut_at n m o k, under_cut n m o k)) ->
  (do st <- fold_res (extract_bin n m lbl lbe lbo (level_values v n m) lvl t ext ovf orig) (seq 1 n) (h, cur);
   fold_res (extract_ter n m lbl lbe lbo (level_values v n m) lvl t ext ovf orig) (seq 1 m) st)
  = fold_res (tree_level n (n + m) (extract_fams n m l e o t ext ovf) (n3_at n m l e o) (fun k => (v / frac_of_Z (slots n k))%Qc) lvl (- Z.of_nat (n + m)) [] orig)
      (seq 1 (n + m)) (h, cur).
Proof.
  intros LBl LBe LBo. rewrite seq_app, fold_res_app.
  assert (LV : forall r w cl il ce ie co io b v' lvl' lta h cur, extract_level r w cl il ce ie co io b v' lvl' lta t ext ovf orig cur h
    = do (h, new) <- (if b then do h <- relink r (total [(t, cl); (ext, ce); (ovf, co)]) cur [] h; Ok (h, orig)
                      else grow r (total [(t, cl); (ext, ce); (ovf, co)]) cur v' lvl' lta (w - ((cl + il) + (ce + ie) + (co + io))) h);
      do h <- reroute_fams r 0 cur [(t, cl); (ext, ce); (ovf, co)] h; Ok (h, new)).
  { intros. unfold extract_level, total. cbn [map snd zsum fold_right]. rewrite Z.add_0_r, (Z.add_assoc cl). replace (w - (cl + il + (ce + ie) + (co + io))) with (w - (cl + ce + co + (il + ie + io))) by lia.
    destruct b.
    - unfold relink. cbn [length Z.of_nat zrange combine]. rewrite combine_nil. cbn [fold_res bind reroute_fams]. rewrite !Z.add_0_l.
      destruct (reroute r 0 cur0 t cl h0); [|reflexivity]. cbn [bind]. destruct (reroute r cl cur0 ext ce a); [|reflexivity]. cbn [bind]. destruct (reroute _ _ _ _ _ _); reflexivity.
    - destruct (grow _ _ _ _ _ _ _ _) as [[h2 new]|]; [|reflexivity]. cbn [bind reroute_fams]. rewrite !Z.add_0_l.
      destruct (reroute r 0 cur0 t cl h2); [|reflexivity]. cbn [bind]. destruct (reroute r cl cur0 ext ce a); [|reflexivity]. cbn [bind]. destruct (reroute _ _ _ _ _ _); reflexivity. }
  assert (B : forall st i, In i (seq 1 n) -> extract_bin n m lbl lbe lbo (level_values v n m) lvl t ext ovf orig st i =
     tree_level n (n + m) (extract_fams n m l e o t ext ovf) (n3_at n m l e o) (fun k => (v / frac_of_Z (slots n k))%Qc) lvl (- Z.of_nat (n + m)) [] orig st i).
  { intros [h1 cur1] i Hi. apply in_seq in Hi. unfold extract_bin. 
    pose proof (LBl i ltac:(lia)) as Gl. pose proof (LBe i ltac:(lia)) as Ge. pose proof (LBo i ltac:(lia)) as Go. unfold level_key in Gl, Ge, Go.
    rewrite Nat.min_l in Gl, Ge, Go by lia. replace (i - n)%nat with O in Gl, Ge, Go by lia. rewrite Gl, Ge, Go. rewrite level_values_at by lia. cbn [bind]. rewrite LV. unfold tree_level, extract_fams, radix.
    rewrite (proj2 (Nat.leb_le i n)) by lia. 
    replace (negb ((i <? n)%nat || negb (m =? 0)%nat)) with (i =? n + m)%nat
      by (destruct (Nat.eqb_spec i (n + m)), (Nat.ltb_spec i n), (Nat.eqb_spec m 0); cbn; lia).
    rewrite !cut_under. unfold n3_at, slots. rewrite Nat.min_l by lia. replace (i - n)%nat with O by lia. change (3 ^ Z.of_nat 0) with 1. rewrite Z.mul_1_r. reflexivity. }
  assert (T : forall st i, In i (seq 1 m) -> extract_ter n m lbl lbe lbo (level_values v n m) lvl t ext ovf orig st i =
     tree_level n (n + m) (extract_fams n m l e o t ext ovf) (n3_at n m l e o) (fun k => (v / frac_of_Z (slots n k))%Qc) lvl (- Z.of_nat (n + m)) [] orig st (n + i)).
  { intros [h1 cur1] i Hi. apply in_seq in Hi. unfold extract_ter.
    pose proof (LBl (n + i)%nat ltac:(lia)) as Gl. pose proof (LBe (n + i)%nat ltac:(lia)) as Ge. pose proof (LBo (n + i)%nat ltac:(lia)) as Go. unfold level_key in Gl, Ge, Go.
    rewrite Nat.min_r in Gl, Ge, Go by lia. replace (n + i - n)%nat with i in Gl, Ge, Go by lia. rewrite Gl, Ge, Go. rewrite level_values_at by lia. cbn [bind]. rewrite LV. unfold tree_level, extract_fams, radix.
    rewrite (proj2 (Nat.leb_gt (n + i) n)) by lia.
    replace (negb (i <? m)%nat) with (n + i =? n + m)%nat
      by (destruct (Nat.eqb_spec (n + i) (n + m)), (Nat.ltb_spec i m); cbn; lia).
    rewrite !cut_under. unfold n3_at, slots. rewrite Nat.min_r by lia. replace (n + i - n)%nat with i by lia. reflexivity. }
  rewrite (fold_res_ext _ _ _ B). destruct (fold_res (tree_level _ _ _ _ _ _ _ _ _) (seq 1 n) (h, cur)) as [st|]; [|reflexivity]. cbn [bind].
  rewrite (fold_res_ext _ _ _ T). 
  replace (seq (1 + n) m) with (map (fun i => (n + i)%nat) (seq 1 m)); [rewrite fold_res_map; reflexivity|].
  clear. rewrite Nat.add_comm. generalize 1%nat. induction m as [|m IH]; intros j; [reflexivity|]. cbn [seq map]. f_equal. rewrite IH. f_equal. lia.
Qed.

Lemma extract_kids h a x c lvl ext ovf : extractable h a x c lvl ext ovf -> forall y, In y (kids h a) <-> y = ext \/ y = ovf.
Proof. intros EX y. destruct (ex_children _ _ _ _ _ _ _ EX) as [->|[-> _]]; cbn [In]; split; [intros [E|[E|[]]]|intros [E|E]|intros [E|[E|[]]]|intros [E|E]]; auto. Qed.

(** the heap expand_extract starts building from *)
Definition cleared (h : heap Qc) (a ext ovf : nat) : heap Qc :=
  upd a (set_children []) (upd ovf (set_parents []) (upd ext (set_parents []) h)).
Lemma cleared_length h a ext ovf : length (cleared h a ext ovf) = length h.
Proof. unfold cleared. rewrite !upd_length. reflexivity. Qed.
Lemma cleared_get h a ext ovf x : (a < length h)%nat -> (ext < length h)%nat -> (ovf < length h)%nat -> ext <> ovf -> ext <> a -> ovf <> a ->
  get (cleared h a ext ovf) x = if (x =? a)%nat then set_children [] (get h x) else if (x =? ext)%nat || (x =? ovf)%nat then set_parents [] (get h x) else get h x.
Proof.
  intros Ha He Ho N1 N2 N3. unfold cleared. destruct (Nat.eqb_spec x a) as [->|Na].
  - rewrite get_upd_same by (rewrite !upd_length; exact Ha). rewrite !get_upd_other by congruence. reflexivity.
  - rewrite get_upd_other by congruence. destruct (Nat.eqb_spec x ovf) as [->|No].
    + rewrite orb_true_r. rewrite get_upd_same by (rewrite upd_length; exact Ho). rewrite get_upd_other by exact N1. reflexivity.
    + rewrite get_upd_other by congruence. rewrite orb_false_r. destruct (Nat.eqb_spec x ext) as [->|Ne]; [apply get_upd_same; exact He|apply get_upd_other; congruence].
Qed.

Lemma extract_loops_cnt n m l e o t ext ovf k : 0 <= l -> 0 <= e -> 0 <= o -> (k <= n + m)%nat -> t <> ext -> t <> ovf -> ext <> ovf ->
  let L := loops_of (extract_fams n m l e o t ext ovf k) in
  Z.of_nat (cnt t L) = cut_at n m l k /\ Z.of_nat (cnt ext L) = cut_at n m e k /\ Z.of_nat (cnt ovf L) = cut_at n m o k /\
  (forall x, In x L -> x = t \/ x = ext \/ x = ovf).
Proof.
  intros Hl He Ho Hk N1 N2 N3. cbn zeta. unfold loops_of, extract_fams. cbn [flat_map fst snd]. rewrite app_nil_r.
  destruct (cut_bounds n m l k Hl Hk), (cut_bounds n m e k He Hk), (cut_bounds n m o k Ho Hk).
  assert (R : forall y z j, cnt y (repeat z j) = if (z =? y)%nat then j else O).
  { intros y z j. destruct (Nat.eqb_spec z y); [apply count_occ_repeat_eq|apply count_occ_repeat_neq]; congruence. }
  rewrite !cnt_app, !R, !Nat.eqb_refl.
  rewrite (proj2 (Nat.eqb_neq t ext)), (proj2 (Nat.eqb_neq t ovf)), (proj2 (Nat.eqb_neq ext ovf)), (proj2 (Nat.eqb_neq ext t)), (proj2 (Nat.eqb_neq ovf t)), (proj2 (Nat.eqb_neq ovf ext)) by congruence.
  split; [lia|]. split; [lia|]. split; [lia|]. intros x I. rewrite !in_app_iff in I. destruct I as [I|[I|I]]; apply repeat_spec in I; tauto.
Qed.
Lemma flat_cnt (f : nat -> list nat) (g : nat -> Z) x j : (forall k, (0 < k <= j)%nat -> Z.of_nat (cnt x (f k)) = g k) ->
  Z.of_nat (cnt x (flat_map f (seq 1 j))) = zsum (map g (seq 1 j)).
Proof.
  induction j as [|j IH]; intros H; [reflexivity|]. rewrite seq_S, flat_map_app, cnt_app, map_app, zsum_app, Nat2Z.inj_add, IH by (intros; apply H; lia).
  cbn [Nat.add flat_map map zsum fold_right]. rewrite app_nil_r, H by lia. lia.
Qed.

Lemma extract_built (h : heap Qc) a x c lvl ext ovf n m l s lbl lbe lbo t v :
  links_agree h -> extractable h a x c lvl ext ovf -> 3 <= x -> 0 < c < x ->
  let g := Z.gcd x (x - c) in let d := x / g in let e := c * d / x in let o := d - e in
  find_n_m_l d = Ok (n, m, l, s) -> (t < length h)%nat -> (Q2Qc 0 <= v)%Qc ->
  (forall k, (k <= n + m)%nat -> lb_get lbl (level_key n k) = (cut_at n m l k, under_cut n m l k)) ->
  (forall k, (k <= n + m)%nat -> lb_get lbe (level_key n k) = (cut_at n m e k, under_cut n m e k)) ->
  (forall k, (k <= n + m)%nat -> lb_get lbo (level_key n k) = (cut_at n m o k, under_cut n m o k)) ->
  exists h' r, (do st <- fold_res (extract_bin n m lbl lbe lbo (level_values v n m) lvl t ext ovf (kids h a)) (seq 1 n) (cleared h a ext ovf, [a]);
              fold_res (extract_ter n m lbl lbe lbo (level_values v n m) lvl t ext ovf (kids h a)) (seq 1 m) st) = Ok (h', r) /\
    built n (n + m) (extract_fams n m l e o t ext ovf) (n3_at n m l e o) (fun k => (v / frac_of_Z (slots n k))%Qc) lvl (- Z.of_nat (n + m)) [] (cleared h a ext ovf) a (n + m) h' /\
    links_agree h'.
Proof.
  intros LA EX Hx Hc g d e o Hf Ht Hv LBl LBe LBo. pose proof (extract_kids _ _ _ _ _ _ _ EX) as Kx. pose proof (extract_parts x c Hx Hc) as HP. cbn zeta in HP. fold g d e in HP. destruct HP as (Hd & He & Exd & Ece).
  destruct (find_n_m_l_positive d n m l s ltac:(lia) Hf) as (Hl & HW & Hnm & Hs). destruct EX. destruct ex_distinct as (N1 & N2 & N3). destruct ex_parents as (P1 & P2).
  assert (B1 : (ext < length h)%nat) by (apply (links_range h a ext LA), Kx; auto).
  assert (B2 : (ovf < length h)%nat) by (apply (links_range h a ovf LA), Kx; auto).
  pose proof (fun y => cleared_get h a ext ovf y ex_node B1 B2 N1 N2 N3) as CG.
  rewrite (extract_levels n m l e o lbl lbe lbo v lvl t ext ovf (kids h a) _ _ LBl LBe LBo).
  destruct (build n (n + m) (extract_fams n m l e o t ext ovf) (n3_at n m l e o) (fun k => (v / frac_of_Z (slots n k))%Qc) lvl (- Z.of_nat (n + m)) [] (kids h a) (cleared h a ext ovf) a) as (h' & E & B).
  - rewrite cleared_length. exact ex_node.
  - rewrite CG, Nat.eqb_refl. reflexivity.
  - exact Hnm.
  - apply n3_0; lia.
  - intros k Hk. apply n3_nonneg; lia.
  - intros k Hk. apply n3_step. lia.
  - intros k. apply negative_false, nonneg_over; [exact Hv|]. pose proof (slots_pos n k). lia.
  - intros k t' c' Hk I. rewrite cleared_length. unfold extract_fams in I. cbn [In] in I.
    destruct I as [I|[I|[I|[]]]]; injection I as <- <-; (split; [apply cut_bounds; lia|split; [assumption|intros []]]).
  - intros y [].
  - constructor.
  - rewrite n3_bottom by lia. reflexivity.
  - intros [].
  - exists h', (kids h a). split; [exact E|]. split; [exact B|]. apply (proj1 (linked_nil _)). pose proof (b_linked _ _ _ _ _ _ _ _ _ _ _ _ B) as LK. rewrite Nat.eqb_refl in LK. apply LK.
    apply (proj2 (linked_nil _)). intros p q. rewrite !CG. pose proof (LA p q) as LAq.
    assert (Ka : cnt q (kids h a) = if (q =? ext)%nat || (q =? ovf)%nat then 1%nat else 0%nat).
    { destruct ex_children as [->|[-> _]]; cbn [count_occ]; destruct (Nat.eq_dec ext q), (Nat.eq_dec ovf q), (Nat.eqb_spec q ext), (Nat.eqb_spec q ovf); cbn; congruence. }
    destruct (Nat.eqb_spec p a) as [->|Np].
    + cbn [set_children n_children count_occ]. rewrite Ka in LAq. destruct (Nat.eqb_spec q a) as [->|Nq].
      * rewrite (proj2 (Nat.eqb_neq a ext)), (proj2 (Nat.eqb_neq a ovf)) in LAq by congruence. exact LAq.
      * destruct ((q =? ext)%nat || (q =? ovf)%nat); [reflexivity|exact LAq].
    + assert (KP : n_children (if (p =? ext)%nat || (p =? ovf)%nat then set_parents [] (get h p) else get h p) = kids h p) by (destruct ((p =? ext)%nat || (p =? ovf)%nat)%bool; reflexivity).
      rewrite KP, LAq.
      destruct (Nat.eqb_spec q a) as [->|Nq]; [reflexivity|].
      destruct (Nat.eqb_spec q ext) as [->|Ne]; [rewrite P1; cbn [orb set_parents n_parents count_occ]; destruct (Nat.eq_dec a p); congruence|].
      destruct (Nat.eqb_spec q ovf) as [->|No]; [rewrite P2; cbn [orb set_parents n_parents count_occ]; destruct (Nat.eq_dec a p); congruence|]. reflexivity.
Qed.

(** the merge tags at the end *)
Definition tags3 (thr : Z) (h : heap Qc) (t ext ovf : nat) : heap Qc := tag_merge 3 (tag_merge 3 (tag_merge thr h t) ext) ovf.
Lemma tags3_length thr h t ext ovf : length (tags3 thr h t ext ovf) = length h.
Proof. unfold tags3. rewrite !tag_merge_length. reflexivity. Qed.
Lemma tags3_fields thr h t ext ovf x : (t < length h)%nat -> (ext < length h)%nat -> (ovf < length h)%nat ->
  kids (tags3 thr h t ext ovf) x = kids h x /\ pars (tags3 thr h t ext ovf) x = pars h x /\
  n_value (get (tags3 thr h t ext ovf) x) = n_value (get h x) /\ n_level (get (tags3 thr h t ext ovf) x) = n_level (get h x).
Proof.
  intros B1 B2 B3. unfold tags3. destruct (tag_merge_fields 3 (tag_merge 3 (tag_merge thr h t) ext) ovf x) as (-> & -> & -> & ->); [rewrite !tag_merge_length; exact B3|].
  destruct (tag_merge_fields 3 (tag_merge thr h t) ext x) as (-> & -> & -> & ->); [rewrite tag_merge_length; exact B2|]. apply tag_merge_fields. exact B1.
Qed.
Lemma tags3_links thr h t ext ovf : (t < length h)%nat -> (ext < length h)%nat -> (ovf < length h)%nat -> links_agree h -> links_agree (tags3 thr h t ext ovf).
Proof.
  intros B1 B2 B3 L. unfold tags3. repeat apply tag_merge_links; rewrite ?tag_merge_length; assumption.
Qed.
Lemma tags3_get thr h t ext ovf x : (t < length h)%nat -> (ext < length h)%nat -> (ovf < length h)%nat -> t <> ext -> t <> ovf -> ext <> ovf ->
  get (tags3 thr h t ext ovf) x =
  let mark k := if k <? Z.of_nat (length (pars h x)) then add_tag (TMerge k) (get h x) else get h x in
  if (x =? t)%nat then mark thr else if (x =? ext)%nat || (x =? ovf)%nat then mark 3 else get h x.
Proof.
  intros B1 B2 B3 N1 N2 N3. cbn zeta. unfold tags3. rewrite !tag_merge_get by (rewrite ?tag_merge_length; assumption).
  rewrite (proj2 (Nat.eqb_neq t ext)), (proj2 (Nat.eqb_neq t ovf)), (proj2 (Nat.eqb_neq ext ovf)) by assumption. cbn [andb].
  rewrite (Nat.eqb_sym ovf x), (Nat.eqb_sym ext x), (Nat.eqb_sym t x).
  destruct (Nat.eqb_spec x t) as [->|Nt]; [rewrite (proj2 (Nat.eqb_neq t ovf)), (proj2 (Nat.eqb_neq t ext)) by assumption; cbn [andb]; reflexivity|].
  destruct (Nat.eqb_spec x ext) as [->|Ne]; [rewrite (proj2 (Nat.eqb_neq ext ovf)) by assumption; cbn [andb orb]; reflexivity|].
  destruct (Nat.eqb_spec x ovf) as [->|No]; cbn [andb orb]; reflexivity.
Qed.

Lemma charged_parts x c n m l s nl sl no so ne se : 3 <= x -> 0 < c < x ->
  let g := Z.gcd x (x - c) in let d := x / g in
  find_n_m_l d = Ok (n, m, l, s) ->
  let info l := compute_n_looping_branches l (compute_splitters_count n m) (compute_branches_count n m) in
  info l = Ok (nl, sl) -> info ((x - c) / g) = Ok (no, so) -> info (c / g) = Ok (ne, se) ->
  let e := c * d / x in
  0 < e < d /\ c / g = e /\ (x - c) / g = d - e /\ 0 < g /\ x = d * g /\ c = e * g /\
  0 <= l /\ d + l = 2 ^ Z.of_nat n * 3 ^ Z.of_nat m /\ (0 < n + m)%nat /\
  nl = zsum (map (cut_at n m l) (seq 1 (n + m))) /\ ne = zsum (map (cut_at n m e) (seq 1 (n + m))) /\ no = zsum (map (cut_at n m (d - e)) (seq 1 (n + m))) /\
  zsum (map (n3_at n m l e (d - e)) (seq 0 (n + m))) = s - (sl + so + se).
Proof.
  intros Hx Hc g d Hf info H1 H2 H3 e. pose proof (extract_parts x c Hx Hc) as HP. cbn zeta in HP. fold g d e in HP. destruct HP as (Hd & He & Exd & Ece).
  assert (Hg : 0 < g) by (assert (0 <= g) by apply Z.gcd_nonneg; nia).
  assert (E1 : c / g = e) by (rewrite Ece at 1; apply Z.div_mul; lia).
  assert (E2 : (x - c) / g = d - e) by (rewrite Exd, Ece at 1; rewrite <- Z.mul_sub_distr_r; apply Z.div_mul; lia).
  destruct (find_n_m_l_positive d n m l s ltac:(lia) Hf) as (Hl & HW & Hnm & Hs).
  rewrite E2 in H2. rewrite E1 in H3.
  destruct (branch_count n m l nl sl ltac:(lia) H1) as (B1 & C1). destruct (branch_count n m (d - e) no so ltac:(lia) H2) as (B2 & C2). destruct (branch_count n m e ne se ltac:(lia) H3) as (B3 & C3).
  repeat split; try assumption; try lia. rewrite n3_saved by lia. rewrite <- Hs, C1, C2, C3. lia.
Qed.

Section Extract.
Variables (h : heap Qc) (a : nat) (x c lvl : Z) (ext ovf n m : nat) (l s nl sl no so ne se : Z).
Hypothesis LA : links_agree h.
Hypothesis EX : extractable h a x c lvl ext ovf.
Hypothesis Hx : 3 <= x.
Hypothesis Hc : 0 < c < x.
Let g := Z.gcd x (x - c).
Let d := x / g.
Hypothesis Hf : find_n_m_l d = Ok (n, m, l, s).
Let info k := compute_n_looping_branches k (compute_splitters_count n m) (compute_branches_count n m).
Hypothesis Il : info l = Ok (nl, sl).
Hypothesis Io : info ((x - c) / g) = Ok (no, so).
Hypothesis Ie : info (c / g) = Ok (ne, se).
Let flow := frac_of_Z (x + l * g).
Let e := c * d / x.

Lemma extract_flow : (flow / frac_of_Z (2 ^ Z.of_nat n * 3 ^ Z.of_nat m))%Qc = frac_of_Z g.
Proof.
  destruct (charged_parts x c n m l s nl sl no so ne se Hx Hc Hf Il Io Ie) as (He & _ & _ & Hg & Exd & Ece & Hl & HW & _). fold g d in Exd, HW, He. fold g in Hg. fold e in He.
  rewrite <- HW. unfold flow. replace (x + l * g) with ((d + l) * g) by nia. rewrite foz_mult. field. apply foz_neq0. lia.
Qed.

Lemma extract_core (h1 : heap Qc) t : (length h <= length h1)%nat -> (t < length h1)%nat -> links_agree h1 -> extractable h1 a x c lvl ext ovf -> t <> ext -> t <> ovf ->
  exists lbl lbe lbo hb r (levels loops : nat -> list nat),
    compute_looping_branches n m l (compute_branches_count n m) = Ok lbl /\
    compute_looping_branches n m e (compute_branches_count n m) = Ok lbe /\
    compute_looping_branches n m (d - e) (compute_branches_count n m) = Ok lbo /\
    (do st <- fold_res (extract_bin n m lbl lbe lbo (level_values flow n m) lvl t ext ovf (kids h1 a)) (seq 1 n) (cleared h1 a ext ovf, [a]);
     fold_res (extract_ter n m lbl lbe lbo (level_values flow n m) lvl t ext ovf (kids h1 a)) (seq 1 m) st) = Ok (hb, r) /\
    links_agree hb /\ (length h1 <= length hb)%nat /\
    (forall hf, (length hb <= length hf)%nat ->
       (forall y, ((length h1 <= y)%nat \/ y = a) -> kids hf y = kids hb y /\ n_value (get hf y) = n_value (get hb y)) ->
       splitter_tree h hf a n m flow levels loops) /\
    levels (n + m)%nat = [] /\ (forall k y, In y (loops k) -> (k <= n + m)%nat -> y = t \/ y = ext \/ y = ovf) /\
    flow_to t n m flow loops = frac_of_Z (l * g) /\ flow_to ext n m flow loops = frac_of_Z c /\ flow_to ovf n m flow loops = frac_of_Z (x - c) /\
    splitter_count n m levels = s - (sl + so + se) /\
    (forall y, (y < length h1)%nat -> same_rest (get h1 y) (get hb y) /\ (y <> a -> kids hb y = kids h1 y) /\
       exists extra, pars hb y = pars (cleared h1 a ext ovf) y ++ extra /\
         Z.of_nat (length extra) = if (y =? t)%nat then nl else if (y =? ext)%nat then ne else if (y =? ovf)%nat then no else 0).
Proof.
  intros L1 Ht LA1 EX1 Nt1 Nt2.
  destruct (charged_parts x c n m l s nl sl no so ne se Hx Hc Hf Il Io Ie) as (He & E1 & E2 & Hg & Exd & Ece & Hl & HW & Hnm & Bl & Be & Bo & Hcnt).
  fold g d e in He, E1, E2, Hg, Exd, Ece, HW, Be, Bo, Hcnt.
  destruct (looping_branches_spec n m (Z.to_nat l) l [] ltac:(lia)) as (lbl & Elbl & Glbl).
  destruct (looping_branches_spec n m (Z.to_nat e) e [] ltac:(lia)) as (lbe & Elbe & Glbe).
  destruct (looping_branches_spec n m (Z.to_nat (d - e)) (d - e) [] ltac:(lia)) as (lbo & Elbo & Glbo).
  assert (Hv : (Q2Qc 0 <= flow)%Qc) by (unfold flow; apply foz_nonneg; nia).
  destruct (extract_built h1 a x c lvl ext ovf n m l s lbl lbe lbo t flow LA1 EX1 Hx Hc Hf Ht Hv) as (hb & r & Eb & B & Lb).
  { intros k Hk. rewrite Glbl by exact Hk. reflexivity. }
  { intros k Hk. fold g d e. rewrite Glbe by exact Hk. reflexivity. }
  { intros k Hk. fold g d e. rewrite Glbo by exact Hk. reflexivity. }
  fold g d e in B. pose proof (extract_kids _ _ _ _ _ _ _ EX1) as Kx. destruct EX1. destruct ex_distinct as (N1 & N2 & N3).
  assert (B1 : (ext < length h1)%nat) by (apply (links_range h1 a ext LA1), Kx; auto).
  assert (B2 : (ovf < length h1)%nat) by (apply (links_range h1 a ovf LA1), Kx; auto).
  pose proof (fun y => cleared_get h1 a ext ovf y ex_node B1 B2 N1 N2 N3) as CG.
  set (h0 := cleared h1 a ext ovf) in *. assert (L0 : length h0 = length h1) by apply cleared_length.
  set (F := extract_fams n m l e (d - e) t ext ovf) in *. set (N := n3_at n m l e (d - e)) in *.
  assert (NN : forall k, (k <= n + m)%nat -> 0 <= N k) by (intros k Hk; apply n3_nonneg; lia).
  assert (LC : forall k, (k <= n + m)%nat -> let L := loops_of (F k) in Z.of_nat (cnt t L) = cut_at n m l k /\ Z.of_nat (cnt ext L) = cut_at n m e k /\ Z.of_nat (cnt ovf L) = cut_at n m (d - e) k /\
    (forall x, In x L -> x = t \/ x = ext \/ x = ovf)) by (intros k Hk; apply extract_loops_cnt; (lia || assumption)).
  pose proof (b_length _ _ _ _ _ _ _ _ _ _ _ _ B) as LB. rewrite Nat.eqb_refl in LB. pose proof (start_ge N h0 (n + m)) as SG.
  exists lbl, lbe, lbo, hb, r, (lv (n + m) N [] h0 a), (fun k => loops_of (F k)).
  split; [exact Elbl|]. split; [exact Elbe|]. split; [exact Elbo|]. split; [exact Eb|]. split; [exact Lb|]. split; [lia|].
  split; [|split; [|split; [|split; [|split; [|split; [|split]]]]]].
  - intros hf Lf Same. apply (built_splitter_tree n m F N flow lvl (- Z.of_nat (n + m)) [] h h0 a hb); try assumption; try lia; [intros y []|apply NoDup_nil|intros []|].
    intros k y Hk I. apply Same. destruct (Nat.lt_ge_cases y (length h1)) as [By|By]; [right|left; exact By].
    apply (lv_old (n + m) N [] h0 a) in I; [exact I|exact Hnm|exact Hk|lia].
  - apply lv_K. exact Hnm.
  - intros k y I Hk. apply (LC k Hk). exact I.
  - rewrite (loops_flow n m l) by (lia || (intros; apply LC; lia)). rewrite extract_flow, <- foz_mult. reflexivity.
  - rewrite (loops_flow n m e) by (lia || (intros; apply LC; lia)). rewrite extract_flow, <- foz_mult, <- Ece. reflexivity.
  - rewrite (loops_flow n m (d - e)) by (lia || (intros; apply LC; lia)). rewrite extract_flow, <- foz_mult. f_equal. nia.
  - rewrite count_levels; [exact Hcnt|exact Hnm|apply n3_0; lia|exact NN|]. unfold N. rewrite n3_bottom by lia. reflexivity.
  - intros y Hy. destruct (b_rest _ _ _ _ _ _ _ _ _ _ _ _ B y ltac:(lia)) as (R & RK).
    assert (S0 : same_rest (get h1 y) (get h0 y) /\ (y <> a -> kids h0 y = kids h1 y)).
    { rewrite CG. destruct (Nat.eqb_spec y a) as [->|Na]; [split; [repeat split|congruence]|]. destruct (_ || _)%bool; (split; [repeat split|reflexivity]). }
    split; [eapply same_rest_trans; [apply S0|exact R]|]. split; [intros Na; rewrite RK by exact Na; apply S0, Na|].
    assert (Nn : ~ In y []) by (intros []). assert (Hy0 : (y < length h0)%nat) by (rewrite L0; exact Hy).
    destruct (b_parents _ _ _ _ _ _ _ _ _ _ _ _ B y Hy0 (or_intror Nn)) as (extra & Ex & Lx & _). exists extra. split; [exact Ex|]. rewrite Lx.
    destruct (Nat.eqb_spec y t) as [->|Nyt]; [rewrite Bl; apply flat_cnt; intros k Hk; apply LC; lia|].
    destruct (Nat.eqb_spec y ext) as [->|Nye]; [rewrite Be; apply flat_cnt; intros k Hk; apply LC; lia|].
    destruct (Nat.eqb_spec y ovf) as [->|Nyo]; [rewrite Bo; apply flat_cnt; intros k Hk; apply LC; lia|].
    rewrite (proj1 (count_occ_not_In _ _ _)); [reflexivity|]. intros I. apply in_flat_map in I. destruct I as (k & Hk & I). apply in_seq in Hk. apply (LC k ltac:(lia)) in I. tauto.
Qed.

(** the two children are told apart *)
Lemma extract_choice (h1 : heap Qc) : extractable h1 a x c lvl ext ovf -> exists c0 c1, at_index (kids h1 a) 0 = Ok c0 /\ at_index (kids h1 a) 1 = Ok c1 /\
  (if frac_eqb (n_value (get h1 c0)) (frac_of_Z c) then (c0, c1) else (c1, c0)) = (ext, ovf).
Proof.
  intros EX1. destruct EX1. destruct ex_children as [->|[-> Ne]].
  - exists ext, ovf. split; [reflexivity|]. split; [reflexivity|]. rewrite ex_extract. rewrite (proj2 (frac_eq_decides _ _) eq_refl). reflexivity.
  - exists ovf, ext. split; [reflexivity|]. split; [reflexivity|]. rewrite ex_overflow. destruct (frac_eqb _ _) eqn:E; [|reflexivity]. apply frac_eq_decides, foz_inj in E. exfalso. clear - E Ne. lia.
Qed.

Lemma extract_lemma : x + l * g <= conveyor_speed_limit ->
  exists h' levels loops, expand_extract h a c = Ok (h', (lvl + 1, Z.of_nat (n + m))) /\
    splitter_tree h h' a n m flow levels loops /\
    levels (n + m)%nat = [] /\ (forall k y, In y (loops k) -> (k <= n + m)%nat -> y = a \/ y = ext \/ y = ovf) /\
    flow_to a n m flow loops = frac_of_Z (l * g) /\ flow_to ext n m flow loops = frac_of_Z c /\ flow_to ovf n m flow loops = frac_of_Z (x - c) /\
    splitter_count n m levels = s - (sl + so + se) /\
    links_agree h' /\
    (exists back, pars h' a = pars h a ++ back /\ Z.of_nat (length back) = nl) /\
    Z.of_nat (length (pars h' ext)) = ne /\ Z.of_nat (length (pars h' ovf)) = no /\
    (forall y, (y < length h)%nat -> y <> a -> y <> ext -> y <> ovf -> get h' y = get h y) /\
    (let threshold := if (length (pars h a) =? 0)%nat then 2 else 3 in
     forall y k, In (y, k) [(a, threshold); (ext, 3); (ovf, 3)] ->
     n_expands (get h' y) = n_expands (get h y) ++ (if k <? Z.of_nat (length (pars h' y)) then [TMerge k] else [])).
Proof.
  intros Hlim. pose proof (extract_kids _ _ _ _ _ _ _ EX) as Kx. pose proof EX as EX'. destruct EX'. destruct ex_distinct as (N1 & N2 & N3).
  assert (B1 : (ext < length h)%nat) by (apply (links_range h a ext LA), Kx; auto).
  assert (B2 : (ovf < length h)%nat) by (apply (links_range h a ovf LA), Kx; auto).
  pose proof (fun y => cleared_get h a ext ovf y ex_node B1 B2 N1 N2 N3) as CG.
  destruct (extract_core h a ltac:(lia) ex_node LA EX ltac:(congruence) ltac:(congruence)) as (lbl & lbe & lbo & hb & r & levels & loops & Elbl & Elbe & Elbo & Eb & Lb & LB & ST & Lev & Lin & F1 & F2 & F3 & SC & Rest).
  destruct (extract_choice h EX) as (c0 & c1 & Ec0 & Ec1 & Sel).
  set (thr := if (length (pars h a) =? 0)%nat then 2 else 3).
  exists (tags3 thr hb a ext ovf), levels, loops.
  assert (Q1 : (a < length hb)%nat) by (eapply Nat.lt_le_trans; [exact ex_node|exact LB]). assert (Q2 : (ext < length hb)%nat) by (eapply Nat.lt_le_trans; [exact B1|exact LB]). assert (Q3 : (ovf < length hb)%nat) by (eapply Nat.lt_le_trans; [exact B2|exact LB]).
  pose proof (fun y => tags3_fields thr hb a ext ovf y Q1 Q2 Q3) as TF.
  pose proof (fun y => tags3_get thr hb a ext ovf y Q1 Q2 Q3 (not_eq_sym N2) (not_eq_sym N3) N1) as TG. cbn zeta in TG.
  split; [|split; [|split; [|split; [|split; [|split; [|split; [|split; [|split; [|split; [|split; [|split; [|split]]]]]]]]]]]]; try assumption.
  - unfold expand_extract. rewrite ex_value, as_int_foz. cbn [bind]. fold g.
    assert (Hg : g <> 0) by (intros E; unfold g in E; apply Z.gcd_eq_0_l in E; lia).
    rewrite (proj2 (Z.eqb_neq g 0)) by exact Hg. fold d. rewrite Hf. cbn [bind]. rewrite (proj2 (Z.ltb_ge conveyor_speed_limit (x + l * g))) by exact Hlim. cbn [bind].
    fold e. rewrite Elbl, Elbe, Elbo. cbn [bind]. unfold level_of. rewrite ex_level. cbn [bind]. rewrite Ec0. cbn [bind]. rewrite Ec1. cbn [bind]. rewrite Sel. fold flow.
    fold (cleared h a ext ovf). destruct (fold_res (extract_bin _ _ _ _ _ _ _ _ _ _ _) _ _) as [st|]; [|discriminate Eb]. cbn [bind] in Eb |- *. rewrite Eb. cbn [bind]. reflexivity.
  - apply ST; [rewrite tags3_length; lia|]. intros y _. destruct (TF y) as (-> & _ & -> & _). auto.
  - apply tags3_links; (lia || assumption).
  - destruct (Rest a ex_node) as (_ & _ & back & Eback & Lback). exists back. destruct (TF a) as (_ & -> & _). rewrite Eback, CG, Nat.eqb_refl. rewrite Nat.eqb_refl in Lback. auto.
  - destruct (Rest ext B1) as (_ & _ & back & Eback & Lback). destruct (TF ext) as (_ & -> & _). rewrite Eback, CG, (proj2 (Nat.eqb_neq ext a)), Nat.eqb_refl by assumption. cbn [orb set_parents n_parents app].
    rewrite (proj2 (Nat.eqb_neq ext a)), Nat.eqb_refl in Lback by assumption. exact Lback.
  - destruct (Rest ovf B2) as (_ & _ & back & Eback & Lback). destruct (TF ovf) as (_ & -> & _). rewrite Eback, CG, (proj2 (Nat.eqb_neq ovf a)), Nat.eqb_refl, orb_true_r by assumption. cbn [orb set_parents n_parents app].
    rewrite (proj2 (Nat.eqb_neq ovf a)), (proj2 (Nat.eqb_neq ovf ext)), Nat.eqb_refl in Lback by congruence. exact Lback.
  - intros y By Na Ne No. rewrite TG, (proj2 (Nat.eqb_neq y a)), (proj2 (Nat.eqb_neq y ext)), (proj2 (Nat.eqb_neq y ovf)) by assumption. cbn [orb].
    destruct (Rest y By) as (R & RK & back & Eback & Lback). specialize (RK Na).
    rewrite (proj2 (Nat.eqb_neq y a)), (proj2 (Nat.eqb_neq y ext)), (proj2 (Nat.eqb_neq y ovf)) in Lback by assumption. destruct back; [|cbn [length] in Lback; lia].
    rewrite app_nil_r, CG, (proj2 (Nat.eqb_neq y a)), (proj2 (Nat.eqb_neq y ext)), (proj2 (Nat.eqb_neq y ovf)) in Eback by assumption. cbn [orb] in Eback.
    rewrite (node_eta _ _ R RK), Eback. destruct (get h y); reflexivity.
  - cbn zeta. fold thr. intros y k I. destruct (TF y) as (_ & -> & _). rewrite TG.
    assert (By : (y < length h)%nat) by (cbn [In] in I; destruct I as [E|[E|[E|[]]]]; injection E as <- _; assumption).
    destruct (Rest y By) as ((_ & _ & _ & _ & R5 & _) & _).
    cbn [In] in I. destruct I as [E|[E|[E|[]]]]; injection E as <- <-.
    + rewrite Nat.eqb_refl. destruct (_ <? _); [cbn [n_expands add_tag set_expands]; rewrite R5; reflexivity|rewrite R5, app_nil_r; reflexivity].
    + rewrite (proj2 (Nat.eqb_neq ext a)), Nat.eqb_refl by assumption. cbn [orb]. destruct (_ <? _); [cbn [n_expands add_tag set_expands]; rewrite R5; reflexivity|rewrite R5, app_nil_r; reflexivity].
    + rewrite (proj2 (Nat.eqb_neq ovf a)), Nat.eqb_refl, orb_true_r by assumption. destruct (_ <? _); [cbn [n_expands add_tag set_expands]; rewrite R5; reflexivity|rewrite R5, app_nil_r; reflexivity].
Qed.

Lemma extract_overload_lemma : conveyor_speed_limit < x + l * g ->
  exists h' levels loops, let extra := length h in expand_extract h a c = Ok (h', (lvl + 1, Z.of_nat (n + m))) /\
    splitter_tree h h' a n m flow levels loops /\
    levels (n + m)%nat = [] /\ (forall k y, In y (loops k) -> (k <= n + m)%nat -> y = extra \/ y = ext \/ y = ovf) /\
    flow_to extra n m flow loops = frac_of_Z (l * g) /\ flow_to ext n m flow loops = frac_of_Z c /\ flow_to ovf n m flow loops = frac_of_Z (x - c) /\
    splitter_count n m levels = s - (sl + so + se) /\
    links_agree h' /\
    kids h' extra = kids h' a /\ n_value (get h' extra) = frac_of_Z (l * g) /\ n_level (get h' extra) = None.
Proof.
  intros Hlim. pose proof (extract_kids _ _ _ _ _ _ _ EX) as Kx. pose proof EX as EX'. destruct EX'. destruct ex_distinct as (N1 & N2 & N3).
  destruct (charged_parts x c n m l s nl sl no so ne se Hx Hc Hf Il Io Ie) as (He & _ & _ & Hg & Exd & Ece & Hl & HW & Hnm & _). fold g in Hg.
  assert (B1 : (ext < length h)%nat) by (apply (links_range h a ext LA), Kx; auto).
  assert (B2 : (ovf < length h)%nat) by (apply (links_range h a ovf LA), Kx; auto).
  destruct (new_ok h (frac_of_Z (l * g)) None 0) as (h1 & E1); [apply negative_false, foz_nonneg, Z.mul_nonneg_nonneg; [exact Hl|apply Z.lt_le_incl; exact Hg]|]. clear He Exd Ece HW. destruct (effect_new _ _ _ _ _ _ E1) as (_ & L1 & EF1 & G1).
  assert (S1 : forall x, (x < length h)%nat -> get h1 x = get h x).
  { intros y Hy. destruct EF1 as [_ EF1]. rewrite EF1 by exact Hy. rewrite app_nil_r. apply relinked_id. }
  assert (LA1 : links_agree h1) by (apply (proj1 (linked_nil _)); eapply linked_new; [exact E1|apply (proj2 (linked_nil _)); exact LA]).
  assert (EX1 : extractable h1 a x c lvl ext ovf) by (constructor; rewrite ?(S1 a ex_node), ?(S1 ext B1), ?(S1 ovf B2); try assumption; try lia; auto).
  set (t := length h) in *.
  destruct (extract_core h1 t ltac:(lia) ltac:(lia) LA1 EX1 ltac:(lia) ltac:(lia)) as (lbl & lbe & lbo & hb & r & levels & loops & Elbl & Elbe & Elbo & Eb & Lb & LB & ST & Lev & Lin & F1 & F2 & F3 & SC & Rest).
  destruct (extract_choice h1 EX1) as (c0 & c1 & Ec0 & Ec1 & Sel).
  set (thr := if (length (pars h1 t) =? 0)%nat then 2 else 3).
  assert (Tb : (t < length hb)%nat) by lia.
  destruct (fold_links t (kids hb a) hb Tb (fun y Hy => links_range hb a y Lb Hy)) as (Lc & EC & LKc). fold (share_children hb a t) in Lc, EC, LKc.
  set (hc := share_children hb a t) in *. destruct EC as [_ EC].
  assert (KC : forall y, y <> t -> kids hc y = kids hb y).
  { intros y Ny. destruct (Nat.lt_ge_cases y (length hb)) as [By|By].
    - rewrite EC by exact By. rewrite relinked_kids. rewrite (proj2 (Nat.eqb_neq t y)) by (intros ->; contradiction). apply app_nil_r.
    - rewrite !get_beyond by lia. reflexivity. }
  assert (VC : forall y, n_value (get hc y) = n_value (get hb y) /\ n_level (get hc y) = n_level (get hb y)).
  { intros y. destruct (Nat.lt_ge_cases y (length hb)) as [By|By]; [rewrite EC by exact By; split; reflexivity|rewrite !get_beyond by lia; split; reflexivity]. }
  destruct (Rest t ltac:(lia)) as ((R1 & R2 & R3 & R4 & R5 & R6) & RK & _). specialize (RK ltac:(lia)). rewrite G1 in R1, R3, RK. cbn [n_value n_level n_children] in R1, R3, RK.
  assert (KT : kids hc t = kids hb a) by (rewrite EC by exact Tb; rewrite relinked_kids, Nat.eqb_refl, RK; reflexivity).
  exists (tags3 thr hc t ext ovf), levels, loops. cbn zeta.
  assert (Q1 : (t < length hc)%nat) by (rewrite Lc; exact Tb). assert (Q2 : (ext < length hc)%nat) by lia. assert (Q3 : (ovf < length hc)%nat) by lia.
  pose proof (fun y => tags3_fields thr hc t ext ovf y Q1 Q2 Q3) as TF.
  split; [|split; [|split; [|split; [|split; [|split; [|split; [|split; [|split; [|split; [|split]]]]]]]]]]; try assumption.
  - unfold expand_extract. rewrite ex_value, as_int_foz. cbn [bind]. fold g.
    rewrite (proj2 (Z.eqb_neq g 0)) by lia. fold d. rewrite Hf. cbn [bind]. rewrite (proj2 (Z.ltb_lt conveyor_speed_limit (x + l * g))) by exact Hlim. rewrite E1. cbn [bind].
    fold e. rewrite Elbl, Elbe, Elbo. cbn [bind]. unfold level_of. assert (LV1 : n_level (get h1 a) = Some lvl) by (destruct EX1; assumption). rewrite LV1. cbn [bind]. rewrite Ec0. cbn [bind]. rewrite Ec1. cbn [bind]. rewrite Sel. fold flow.
    fold (cleared h1 a ext ovf). destruct (fold_res (extract_bin _ _ _ _ _ _ _ _ _ _ _) _ _) as [st|]; [|discriminate Eb]. cbn [bind] in Eb |- *. rewrite Eb. cbn [bind]. reflexivity.
  - apply ST; [rewrite tags3_length; lia|]. intros y Hy. destruct (TF y) as (-> & _ & -> & _). destruct (VC y) as [-> _]. split; [|reflexivity]. apply KC. destruct Hy as [Hy| ->]; lia.
  - apply tags3_links; try lia. apply LKc, Lb.
  - destruct (TF t) as (-> & _). destruct (TF a) as (-> & _). rewrite KT. symmetry. apply KC. lia.
  - destruct (TF t) as (_ & _ & -> & _). destruct (VC t) as [-> _]. exact R1.
  - destruct (TF t) as (_ & _ & _ & ->). destruct (VC t) as [_ ->]. exact R3.
Qed.
End Extract.
