(** Tree.attach_leaves (Tree.v) on fresh leaves completes the network. *)
From Verif Require Import Base BaseLemmas Cost Utils Fractions Load LoadSpec LoadProofs Tree TreeSpec HeapLemmas TreeInv TreeGrow Search SearchSpec Expand Conclude SizeSpec PlantProofs.
Open Scope Z_scope.

(** ** adopt *)
Definition adopted (kids : list nat) (n : node Z) : node Z :=
  let cs := n_children n ++ kids in
  let m := set_children cs n in
  if (3 <? length cs)%nat then add_tag (TDivide (Z.of_nat (length cs))) m else m.

Lemma adopt_fold src kids : forall h : heap Z, NoDup kids -> ~ In src kids -> (src < length h)%nat -> (forall c, In c kids -> (c < length h)%nat) ->
  let h' := fold_left (fun h c => upd c (set_parents [src]) (upd src (add_child c) h)) kids h in
  length h' = length h /\ get h' src = set_children (n_children (get h src) ++ kids) (get h src) /\
  (forall c, In c kids -> get h' c = set_parents [src] (get h c)) /\
  (forall x, x <> src -> ~ In x kids -> get h' x = get h x).
Proof.
  induction kids as [|c kids IH]; intros h ND NS Bs Bk h'.
  - unfold h'. cbn [fold_left]. split; [reflexivity|]. split; [rewrite app_nil_r; destruct (get h src); reflexivity|]. split; [intros c []|reflexivity].
  - inversion ND as [|? ? Nc ND']; subst. set (h1 := upd c (set_parents [src]) (upd src (add_child c) h)).
    assert (Ncs : c <> src) by (intros ->; apply NS; left; reflexivity). assert (Bc : (c < length h)%nat) by (apply Bk; left; reflexivity).
    assert (L1 : length h1 = length h) by (unfold h1; rewrite !upd_length; reflexivity).
    destruct (IH h1) as (L & Gs & Gk & Go); [exact ND'|intros I; apply NS; right; exact I|rewrite L1; exact Bs|intros x I; rewrite L1; apply Bk; right; exact I|].
    change h' with (fold_left (fun h c => upd c (set_parents [src]) (upd src (add_child c) h)) kids h1).
    split; [rewrite L, L1; reflexivity|]. split; [|split].
    + rewrite Gs. unfold h1. rewrite get_upd_other by exact Ncs. rewrite get_upd_same by exact Bs. cbn. rewrite <- app_assoc. reflexivity.
    + intros x [<-|I].
      * rewrite Go by assumption. unfold h1. rewrite get_upd_same by (rewrite upd_length; exact Bc). rewrite get_upd_other by (intros E; apply Ncs; congruence). reflexivity.
      * rewrite (Gk x I). f_equal. assert (x <> c) by (intros ->; contradiction). assert (x <> src) by (intros ->; apply NS; right; exact I).
        unfold h1. rewrite !get_upd_other by congruence. reflexivity.
    + intros x Nx Ix. cbn [In] in Ix. rewrite Go by tauto. unfold h1. rewrite !get_upd_other by (intros E; subst; tauto). reflexivity.
Qed.
Lemma adopt_spec (h : heap Z) src leaf : NoDup (children h leaf) -> ~ In src (children h leaf) -> (src < length h)%nat ->
  (forall c, In c (children h leaf) -> (c < length h)%nat) ->
  let h' := adopt h src leaf in
  length h' = length h /\ get h' src = adopted (children h leaf) (get h src) /\
  (forall c, In c (children h leaf) -> get h' c = set_parents [src] (get h c)) /\
  (forall x, x <> src -> ~ In x (children h leaf) -> get h' x = get h x).
Proof.
  intros ND NS Bs Bk h'. destruct (adopt_fold src (children h leaf) h ND NS Bs Bk) as (L & Gs & Gk & Go). unfold h', adopt. change (n_children (get h leaf)) with (children h leaf).
  set (h1 := fold_left (fun (h : list (node Z)) (c : nat) => upd c (set_parents [src]) (upd src (add_child c) h)) (children h leaf) h) in *. fold (heap Z) in h1. change (fold_left _ (children h leaf) h) with h1. rewrite Gs. cbn [set_children n_children]. unfold adopted. destruct (3 <? _)%nat.
  - split; [rewrite upd_length; exact L|]. split; [rewrite get_upd_same by (rewrite L; exact Bs); rewrite Gs; reflexivity|]. split.
    + intros c I. rewrite get_upd_other by (intros ->; contradiction). apply Gk, I.
    + intros x Nx I. rewrite get_upd_other by congruence. apply Go; assumption.
  - split; [exact L|]. split; [exact Gs|]. split; [exact Gk|exact Go].
Qed.

Lemma adopt_all_spec l : forall h : heap Z,
  NoDup (map fst l) ->
  (forall s f, In (s, f) l -> (s < length h)%nat /\ NoDup (children h f) /\ (forall c, In c (children h f) -> (c < length h)%nat)) ->
  (forall s f s' f', In (s, f) l -> In (s', f') l -> ~ In s (children h f') /\ f' <> s /\ ~ In f' (children h f)) ->
  (forall s f s' f' x, In (s, f) l -> In (s', f') l -> In x (children h f) -> In x (children h f') -> s = s') ->
  let h' := fold_left (fun h p => adopt h (fst p) (snd p)) l h in
  length h' = length h /\
  (forall s f, In (s, f) l -> get h' s = adopted (children h f) (get h s)) /\
  (forall s f x, In (s, f) l -> In x (children h f) -> get h' x = set_parents [s] (get h x)) /\
  (forall x, ~ In x (map fst l) -> (forall s f, In (s, f) l -> ~ In x (children h f)) -> get h' x = get h x).
Proof.
  induction l as [|[s f] l IH]; intros h ND B1 B2 B3 h'; [split; [reflexivity|]; split; [intros ? ? []|]; split; [intros ? ? ? []|reflexivity]|].
  cbn [map fst] in ND. inversion ND as [|? ? Ns ND']; subst. set (h1 := adopt h s f).
  assert (I0 : In (s, f) ((s, f) :: l)) by (left; reflexivity).
  destruct (B1 s f I0) as (Bs & NDf & Bf). destruct (adopt_spec h s f NDf (proj1 (B2 s f s f I0 I0)) Bs Bf) as (L1 & Gs1 & Gk1 & Go1). fold h1 in L1, Gs1, Gk1, Go1.
  assert (Kf : forall s' f', In (s', f') l -> children h1 f' = children h f').
  { intros s' f' I. unfold children. rewrite Go1; [reflexivity| |].
    - apply (B2 s f s' f' I0 (or_intror I)).
    - apply (B2 s f s' f' I0 (or_intror I)). }
  destruct (IH h1 ND') as (L & Gs & Gk & Go).
  - intros s' f' I. rewrite (Kf s' f' I), L1. apply (B1 s' f' (or_intror I)).
  - intros s1 f1 s2 f2 J1 J2. rewrite (Kf s2 f2 J2), (Kf s1 f1 J1). apply (B2 s1 f1 s2 f2 (or_intror J1) (or_intror J2)).
  - intros s1 f1 s2 f2 x J1 J2. rewrite (Kf s2 f2 J2), (Kf s1 f1 J1). apply (B3 s1 f1 s2 f2 x (or_intror J1) (or_intror J2)).
  - change h' with (fold_left (fun h p => adopt h (fst p) (snd p)) l h1). split; [congruence|]. split; [|split].
    + intros s' f' [E|I].
      * injection E as <- <-. rewrite Go; [exact Gs1|exact Ns|]. intros s' f' I. rewrite (Kf s' f' I). apply (B2 s f s' f' I0 (or_intror I)).
      * rewrite (Gs s' f' I), (Kf s' f' I). f_equal. apply Go1.
        -- intros ->. apply Ns. apply (in_map fst _ _ I).
        -- apply (B2 s' f' s f (or_intror I) I0).
    + intros s' f' x [E|I] Ix.
      * injection E as <- <-. rewrite Go; [apply Gk1, Ix| |].
        -- intros J. apply in_map_iff in J. destruct J as ([s' f'] & E & J). cbn in E. subst s'. apply (proj1 (B2 x f' s f (or_intror J) I0)), Ix.
        -- intros s' f' J Jx. rewrite (Kf s' f' J) in Jx. assert (E : s = s') by (apply (B3 s f s' f' x I0 (or_intror J)); assumption). subst s'. apply Ns, (in_map fst _ _ J).
      * rewrite (Gk s' f' x I); [|rewrite (Kf s' f' I); exact Ix]. f_equal. apply Go1.
        -- intros ->. apply (proj1 (B2 s f s' f' I0 (or_intror I))), Ix.
        -- intros J. assert (E : s = s') by (apply (B3 s f s' f' x I0 (or_intror I)); assumption). subst s'. apply Ns, (in_map fst _ _ I).
    + intros x Nx Kx. cbn [map fst In] in Nx. rewrite Go; [apply Go1|tauto|].
      * intros E. apply Nx. left. congruence.
      * apply (Kx s f I0).
      * intros s' f' I. rewrite (Kf s' f' I). apply (Kx s' f' (or_intror I)).
Qed.

(** ** what the groups cost *)
Definition dprice (d : Z * Z) : Z := price_of (divide_cost (fst d) (snd d)).
Definition gprice (g : gnode) : Z := match gchildren g with [] => 0 | cs => dprice (gvalue g, Z.of_nat (length cs)) end.
Lemma ginner_price g : zsum (map dprice (ginner g)) = gprice g + zsum (map dprice (flat_map ginner (gchildren g))).
Proof. destruct g as [v ts [|c cs]]; reflexivity. Qed.
Lemma block_price : forall n b ps l (P : nat -> Z), (sizes l <= n)%nat -> (forall a g p, placed b ps l a g p -> P a = gprice g) ->
  zsum (map P (seq b (sizes l))) = zsum (map dprice (flat_map ginner l)).
Proof.
  induction n as [|n IH]; intros b ps [|g r] P Hn H; try reflexivity; cbn [map list_sum fold_right] in *; fold (sizes r) in *; pose proof (gsize_eq g) as Hg; [lia|].
  rewrite seq_app, map_app, zsum_app. rewrite (IH (b + gsize g)%nat ps r) by first [lia|intros a k p Hk; apply (H a k p), pl_next, Hk].
  rewrite Hg at 1. cbn [seq map]. rewrite zsum_cons, (H b g ps (pl_here _ _ _ _)). rewrite (IH (S b) [b] (gchildren g)) by first [lia|intros a k p Hk; apply (H a k p), pl_deep, Hk].
  cbn [flat_map]. rewrite map_app, zsum_app, ginner_price. lia.
Qed.
(** the nodes below the tops of a forest *)
Definition blocks (b : nat) (l : list gnode) : list nat := flat_map (fun e => seq (S (fst e)) (sizes (gchildren (snd e)))) (tops b l).
Lemma blocks_cons b g r : blocks b (g :: r) = seq (S b) (sizes (gchildren g)) ++ blocks (b + gsize g) r.
Proof. reflexivity. Qed.
Lemma blocks_range : forall l b a, In a (blocks b l) -> (b <= a < b + sizes l)%nat.
Proof.
  induction l as [|g r IH]; intros b a I; [destruct I|]. rewrite blocks_cons in I. pose proof (gsize_eq g) as Hg. cbn [map list_sum fold_right]. fold (sizes r). apply in_app_or in I. destruct I as [I|I]; [apply in_seq in I; lia|].
  apply IH in I. lia.
Qed.
Lemma blocks_nd : forall l b, NoDup (blocks b l).
Proof.
  induction l as [|g r IH]; intros b; [constructor|]. rewrite blocks_cons. apply nodup_app; [apply IH|apply seq_NoDup|]. intros a J I. apply blocks_range in I. apply in_seq in J. pose proof (gsize_eq g). lia.
Qed.
Lemma placed_block b ps l a g p : placed b ps l a g p -> (p = ps /\ In (a, g) (tops b l)) \/ exists f k, In (f, k) (tops b l) /\ placed (S f) [f] (gchildren k) a g p.
Proof.
  induction 1 as [b ps g r|b ps g r a x p H IH|b ps g r a x p H _].
  - left. split; [reflexivity|left; reflexivity].
  - destruct IH as [[-> I]|(f & k & I & J)]; [left; split; [reflexivity|right; exact I]|]. right. exists f, k. split; [right; exact I|exact J].
  - right. exists b, g. split; [left; reflexivity|exact H].
Qed.
Lemma block_placed : forall l b ps f k a g p, In (f, k) (tops b l) -> placed (S f) [f] (gchildren k) a g p -> placed b ps l a g p.
Proof.
  induction l as [|x r IH]; intros b ps f k a g p I H; [destruct I|]. cbn [starts combine In] in I. destruct I as [E|I]; [injection E as <- <-; apply pl_deep, H|apply pl_next, (IH _ _ _ _ _ _ _ I H)].
Qed.
Lemma blocks_in l b a : In a (blocks b l) <-> exists g q, placed b [] l a g [q].
Proof.
  unfold blocks. rewrite in_flat_map. split.
  - intros ([f k] & I & J). cbn [fst snd] in J. apply in_seq in J. destruct (placed_total (sizes (gchildren k)) (S f) [f] (gchildren k) a) as (g & p & H); [lia|lia|].
    assert (exists q, p = [q]) as (q & ->) by (destruct (placed_parent _ _ _ _ _ _ H) as [[-> _]|(q & gq & pq & -> & _)]; eauto). exists g, q. apply (block_placed l b [] f k a g [q] I H).
  - intros (g & q & H). destruct (placed_block _ _ _ _ _ _ H) as [[E _]|(f & k & I & J)]; [discriminate|]. exists (f, k). split; [exact I|]. apply placed_range in J. cbn [fst snd]. apply in_seq. pose proof (gsize_eq g). lia.
Qed.
Lemma blocks_price : forall l b (P : nat -> Z), (forall a g q, placed b [] l a g [q] -> P a = gprice g) ->
  zsum (map gprice l) + zsum (map P (blocks b l)) = zsum (map dprice (flat_map ginner l)).
Proof.
  induction l as [|g r IH]; intros b P H; [reflexivity|]. rewrite blocks_cons. cbn [map flat_map]. rewrite !map_app, !zsum_app, zsum_cons, ginner_price.
  rewrite <- (IH (b + gsize g)%nat P) by (intros a k q Hk; apply (H a k q), pl_next, Hk).
  rewrite (block_price (sizes (gchildren g)) (S b) [b] (gchildren g) P (Nat.le_refl _)); [lia|].
  intros a k p Hk. assert (exists q, p = [q]) as (q & ->) by (destruct (placed_parent _ _ _ _ _ _ Hk) as [[-> _]|(q & gq & pq & -> & _)]; eauto). apply (H a k q), pl_deep, Hk.
Qed.
(** values raised at single places *)
Lemma zsum_raised (f : nat -> Z) s z : forall l, NoDup l -> In s l -> zsum (map (fun a => if Nat.eq_dec a s then f a + z else f a) l) = zsum (map f l) + z.
Proof.
  induction l as [|x l IH]; intros ND I; [destruct I|]. apply NoDup_cons_iff in ND. destruct ND as [NI ND]. cbn [map]. rewrite !zsum_cons. destruct (Nat.eq_dec x s) as [->|D].
  - rewrite (map_ext_in _ f); [lia|]. intros a Ia. destruct (Nat.eq_dec a s) as [->|_]; [contradiction|reflexivity].
  - rewrite IH; [lia|exact ND|]. destruct I as [I|I]; [congruence|exact I].
Qed.
Lemma zsum_marks : forall E (f g : nat -> Z) l, NoDup l -> NoDup (map fst E) -> (forall s z, In (s, z) E -> In s l /\ f s = g s + z) ->
  (forall a, In a l -> ~ In a (map fst E) -> f a = g a) -> zsum (map f l) = zsum (map g l) + zsum (map snd E).
Proof.
  induction E as [|[s z] E IH]; intros f g l ND NE H K; cbn [map fst snd] in *; [cbn [zsum fold_right]; rewrite (map_ext_in f g) by (intros a I; apply K; [exact I|intros []]); unfold zsum; cbn; lia|].
  apply NoDup_cons_iff in NE. destruct NE as [NI NE]. destruct (H s z (or_introl eq_refl)) as [Is Es]. rewrite zsum_cons, (IH f (fun a => if Nat.eq_dec a s then g a + z else g a) l ND NE).
  - rewrite (zsum_raised g s z l ND Is). lia.
  - intros s' z' I. destruct (H s' z' (or_intror I)) as [I' E']. split; [exact I'|]. destruct (Nat.eq_dec s' s) as [->|_]; [exfalso; apply NI, (in_map fst _ _ I)|exact E'].
  - intros a Ia Na. destruct (Nat.eq_dec a s) as [->|D]; [exact Es|]. apply K; [exact Ia|]. intros [X|X]; [congruence|exact (Na X)].
Qed.

Section Attach.
Variables (h0 : heap Z) (t : tree Z) (N : nat -> Prop) (gs : list gnode).
Hypothesis W : wf h0 t N.
Hypothesis Vals : map (value h0) (t_sources t) = map gvalue gs.
Hypothesis Fold : Forall folded gs.
Hypothesis Pos : forall v, In v (flat_map gleaves gs) -> 0 < v.

Local Notation n0 := (length h0).
Local Notation hp := (fst (plant h0 gs)).
Local Notation forest := (in_forest h0 gs).
Let P3 := combine (t_sources t) (tops n0 gs).
Let pairs := combine (t_sources t) (snd (plant h0 gs)).
Definition adopted_heap : heap Z := fold_left (fun h p => adopt h (fst p) (snd p)) pairs hp.
Local Notation h1 := adopted_heap.

Lemma P3_pairs : pairs = map (fun e => (fst e, fst (snd e))) P3.
Proof.
  unfold pairs, P3, plant. cbn [snd]. generalize n0 as b. generalize gs as l. generalize (t_sources t) as S. induction S as [|s S IH]; intros l b; [reflexivity|].
  destruct l as [|g l]; [reflexivity|]. cbn. f_equal. apply IH.
Qed.
Lemma P3_value : forall s f g, In (s, (f, g)) P3 -> value h0 s = gvalue g.
Proof.
  unfold P3. revert Vals. generalize n0 as b. generalize gs as l. generalize (t_sources t) as S. induction S as [|s S IH]; intros l b V s' f g I; [destruct I|].
  destruct l as [|k l]; [destruct I|]. cbn [map] in V. injection V as V1 V2. cbn [starts combine In] in I. destruct I as [E|I]; [injection E as <- <- <-; exact V1|]. apply (IH l _ V2 s' f g I).
Qed.
Lemma lens : length (t_sources t) = length gs.
Proof. apply (f_equal (@length Z)) in Vals. rewrite !map_length in Vals. exact Vals. Qed.
Lemma P3_in s f g : In (s, (f, g)) P3 -> In s (t_sources t) /\ In (f, g) (tops n0 gs).
Proof. intros I. split; [eapply in_combine_l, I|eapply in_combine_r, I]. Qed.
Lemma P3_fst : map fst P3 = t_sources t.
Proof.
  unfold P3. assert (L : length (tops n0 gs) = length (t_sources t)) by (rewrite combine_length, starts_length, lens; lia). revert L. generalize (tops n0 gs) as l. generalize (t_sources t) as S.
  induction S as [|s S IH]; intros [|e l] L; try discriminate; [reflexivity|]. cbn. f_equal. apply IH. injection L as L. exact L.
Qed.
Lemma P3_snd : map snd P3 = tops n0 gs.
Proof.
  unfold P3. assert (L : length (tops n0 gs) = length (t_sources t)) by (rewrite combine_length, starts_length, lens; lia). revert L. generalize (tops n0 gs) as l. generalize (t_sources t) as S.
  induction S as [|s S IH]; intros [|e l] L; try discriminate; [reflexivity|]. cbn. f_equal. apply IH. injection L as L. exact L.
Qed.
Lemma P3_source s : In s (t_sources t) -> exists f g, In (s, (f, g)) P3.
Proof. rewrite <- P3_fst. intros I. apply in_map_iff in I. destruct I as ([s' [f g]] & E & I). cbn in E. subst. eauto. Qed.
Lemma P3_top f g : In (f, g) (tops n0 gs) -> exists s, In (s, (f, g)) P3.
Proof. rewrite <- P3_snd. intros I. apply in_map_iff in I. destruct I as ([s e] & E & I). cbn in E. subst. eauto. Qed.
Lemma P3_fun s f g f' g' : In (s, (f, g)) P3 -> In (s, (f', g')) P3 -> f = f' /\ g = g'.
Proof.
  intros I J. assert (ND : NoDup (map fst P3)) by (rewrite P3_fst; apply (wf_open_nd _ _ _ W)). revert ND I J. generalize P3 as l.
  induction l as [|e l IH]; intros ND I J; [destruct I|]. cbn [map] in ND. inversion ND as [|? ? NI ND']; subst. destruct I as [->|I], J as [E|J].
  - injection E as <- <-. auto.
  - exfalso. apply NI, (in_map fst _ _ J).
  - subst e. exfalso. apply NI, (in_map fst _ _ I).
  - apply IH; assumption.
Qed.
Lemma source_old s : In s (t_sources t) -> (s < n0)%nat /\ N s /\ children h0 s = [].
Proof. intros I. apply (wf_open _ _ _ W) in I. destruct I as [Ns E]. split; [apply (wf_bound _ _ _ W), Ns|]. auto. Qed.
Lemma top_forest f g : In (f, g) (tops n0 gs) -> forest f g [].
Proof. apply placed_top. Qed.
Lemma top_kids f g : In (f, g) (tops n0 gs) -> children hp f = starts (S f) (gchildren g).
Proof. intros I. unfold children. rewrite (plant_get h0 gs f g []) by (apply top_forest, I). reflexivity. Qed.
Lemma kid_forest f g x c : In (f, g) (tops n0 gs) -> In (x, c) (tops (S f) (gchildren g)) -> forest x c [f].
Proof. intros I J. apply (placed_child _ _ _ _ _ _ _ _ (top_forest f g I) J). Qed.
Lemma forest_fun x c c' p p' : forest x c p -> forest x c' p' -> p = p'.
Proof. intros H1 H2. pose proof (plant_parents h0 gs x c p H1) as E. rewrite (plant_parents h0 gs x c' p' H2) in E. congruence. Qed.
Lemma pairs_in s f : In (s, f) pairs -> exists g, In (s, (f, g)) P3.
Proof. rewrite P3_pairs. intros I. apply in_map_iff in I. destruct I as ([s' [f' g]] & E & I). cbn in E. injection E as <- <-. eauto. Qed.
Lemma in_pairs s f g : In (s, (f, g)) P3 -> In (s, f) pairs.
Proof. intros I. rewrite P3_pairs. apply (in_map (fun e => (fst e, fst (snd e))) _ _ I). Qed.

Lemma adopt_facts : length h1 = length hp /\
  (forall s f g, In (s, (f, g)) P3 -> get h1 s = adopted (starts (S f) (gchildren g)) (get h0 s)) /\
  (forall s f g x c, In (s, (f, g)) P3 -> In (x, c) (tops (S f) (gchildren g)) -> get h1 x = set_parents [s] (gn x [f] c)) /\
  (forall x, ~ In x (t_sources t) -> (forall f g c, In (f, g) (tops n0 gs) -> ~ In (x, c) (tops (S f) (gchildren g))) -> get h1 x = get hp x).
Proof.
  assert (KR : forall s f, In (s, f) pairs -> exists g, In (s, (f, g)) P3 /\ In s (t_sources t) /\ In (f, g) (tops n0 gs) /\ children hp f = starts (S f) (gchildren g)).
  { intros s f I. destruct (pairs_in s f I) as (g & J). exists g. destruct (P3_in _ _ _ J). repeat (split; [assumption|]). apply top_kids. assumption. }
  assert (KF : forall s f x, In (s, f) pairs -> In x (children hp f) -> exists c, forest x c [f]).
  { intros s f x I J. destruct (KR s f I) as (g & _ & _ & T & E). rewrite E in J. apply starts_in in J. destruct J as (c & J). exists c. apply (kid_forest f g); assumption. }
  destruct (adopt_all_spec pairs hp) as (L & G1 & G2 & G3).
  - rewrite P3_pairs, map_map. change (NoDup (map fst P3)). rewrite P3_fst. apply (wf_open_nd _ _ _ W).
  - intros s f I. destruct (KR s f I) as (g & J & Js & T & E). split; [|split].
    + rewrite plant_length. destruct (source_old s Js). lia.
    + rewrite E. apply starts_nd.
    + intros c Jc. destruct (KF s f c I Jc) as (k & Hk). apply (plant_range h0 gs c k [f] Hk).
  - intros s f s' f' I I'. destruct (KR s f I) as (g & J & Js & T & E). destruct (KR s' f' I') as (g' & J' & Js' & T' & E'). destruct (source_old s Js) as (B & _). split; [|split].
    + intros K. destruct (KF s' f' s I' K) as (k & Hk). apply plant_range in Hk. lia.
    + intros ->. apply top_forest, plant_range in T'. lia.
    + intros K. destruct (KF s f f' I K) as (k & Hk). pose proof (forest_fun _ _ _ _ _ Hk (top_forest f' g' T')). discriminate.
  - intros s f s' f' x I I' J J'. destruct (KR s f I) as (g & Q & _). destruct (KR s' f' I') as (g' & Q' & _).
    destruct (KF s f x I J) as (k & Hk). destruct (KF s' f' x I' J') as (k' & Hk'). pose proof (forest_fun _ _ _ _ _ Hk Hk') as E. injection E as <-.
    clear -Q Q' W Vals Fold Pos. assert (ND : NoDup (map (fun e => fst (snd e)) P3)).
    { rewrite <- (map_map snd fst), P3_snd, tops_fst. apply starts_nd. }
    revert ND Q Q'. generalize P3 as l. induction l as [|e l IH]; intros ND I J; [destruct I|]. cbn [map] in ND. inversion ND as [|? ? NI ND']; subst. destruct I as [->|I], J as [E|J].
    + congruence.
    + exfalso. apply NI, (in_map (fun e => fst (snd e)) _ _ J).
    + subst e. exfalso. apply NI, (in_map (fun e => fst (snd e)) _ _ I).
    + apply IH; assumption.
  - split; [exact L|]. split; [|split].
    + intros s f g I. unfold adopted_heap. rewrite (G1 s f (in_pairs s f g I)). destruct (P3_in _ _ _ I) as [Js T]. rewrite (top_kids f g T). f_equal. apply plant_old. apply source_old, Js.
    + intros s f g x c I J. unfold adopted_heap. destruct (P3_in _ _ _ I) as [Js T]. rewrite (G2 s f x (in_pairs s f g I)).
      * f_equal. apply (plant_get h0 gs x c [f]), (kid_forest f g); assumption.
      * rewrite (top_kids f g T). apply (tops_in _ _ _ _ J).
    + intros x Nx Kx. unfold adopted_heap. apply G3.
      * rewrite P3_pairs, map_map. change (~ In x (map fst P3)). rewrite P3_fst. exact Nx.
      * intros s f I J. destruct (KR s f I) as (g & _ & _ & T & E). rewrite E in J. apply starts_in in J. destruct J as (c & J). apply (Kx f g c T J).
Qed.

(** [u] feeds the groups below [g] *)
Definition carries (u : nat) (g : gnode) : Prop :=
  value h1 u = gvalue g /\ folded g /\ exists b, children h1 u = starts b (gchildren g) /\
  forall x c, In (x, c) (tops b (gchildren g)) -> (exists f, forest x c [f]) /\ parents h1 x = [u] /\ (u < x)%nat.

Lemma source_carries s f g : In (s, (f, g)) P3 -> carries s g.
Proof.
  intros I. destruct adopt_facts as (_ & G1 & G2 & _). destruct (P3_in _ _ _ I) as [Js T]. destruct (source_old s Js) as (B & Ns & E0).
  assert (C : children h1 s = starts (S f) (gchildren g)).
  { unfold children. rewrite (G1 s f g I). unfold adopted. change (n_children (get h0 s)) with (children h0 s). rewrite E0. cbn [app]. destruct (3 <? _)%nat; reflexivity. }
  split; [|split].
  - unfold value. rewrite (G1 s f g I). transitivity (value h0 s); [unfold adopted, value; destruct (3 <? _)%nat; reflexivity|]. apply (P3_value s f g I).
  - apply (placed_folded _ _ _ _ _ _ (top_forest f g T) Fold).
  - exists (S f). split; [exact C|]. intros x c J. pose proof (kid_forest f g x c T J) as Hx. split; [eauto|]. split; [unfold parents; rewrite (G2 s f g x c I J); reflexivity|].
    apply plant_range in Hx. lia.
Qed.
Lemma deep_get a g q : forest a g [q] -> (forall gq, ~ In (q, gq) (tops n0 gs)) -> get h1 a = gn a [q] g.
Proof.
  intros H NT. destruct adopt_facts as (_ & _ & _ & G3). rewrite G3; [apply plant_get, H| |].
  - intros I. apply source_old in I. apply plant_range in H. lia.
  - intros f k c T J. pose proof (forest_fun _ _ _ _ _ (kid_forest f k a c T J) H) as E. injection E as ->. apply (NT _ T).
Qed.
Lemma forest_top_dec q gq pq : forest q gq pq -> (pq = [] /\ exists k, In (q, k) (tops n0 gs)) \/ (exists r, pq = [r]) /\ forall k, ~ In (q, k) (tops n0 gs).
Proof.
  intros H. destruct (plant_up h0 gs q gq pq H) as [[-> I]|(r & _ & _ & -> & _ & _ & I)].
  - left. split; [reflexivity|]. apply starts_in in I. exact I.
  - right. split; [eauto|]. intros k T. apply I. apply tops_in in T. apply T.
Qed.
Lemma forest_get a g q : forest a g [q] -> exists u, get h1 a = set_parents [u] (gn a [q] g).
Proof.
  intros H. destruct (placed_parent _ _ _ _ _ _ H) as [[E _]|(q' & gq & pq & E & Hq & I)]; [discriminate|]. injection E as <-.
  destruct (forest_top_dec q gq pq Hq) as [[-> (k & T)]|[_ NT]].
  - assert (E : k = gq \/ True) by auto. destruct (P3_top q k T) as (s & Q). destruct adopt_facts as (_ & _ & G2 & _).
    assert (K : starts (S q) (gchildren k) = starts (S q) (gchildren gq)).
    { pose proof (plant_get h0 gs _ _ _ Hq) as E1. rewrite (plant_get h0 gs _ _ _ (top_forest q k T)) in E1. injection E1 as _ E1 _. exact E1. }
    destruct (tops_in _ _ _ _ I) as [I1 _]. rewrite <- K in I1. apply starts_in in I1. destruct I1 as (c & I1). exists s. rewrite (G2 s q k a c Q I1).
    pose proof (plant_get h0 gs _ _ _ (kid_forest q k a c T I1)) as E1. rewrite (plant_get h0 gs _ _ _ H) in E1. rewrite E1. reflexivity.
  - exists q. rewrite (deep_get a g q H NT). reflexivity.
Qed.
Lemma forest_carries a g q : forest a g [q] -> carries a g.
Proof.
  intros H. destruct (forest_get a g q H) as (u & E). split; [unfold value; rewrite E; reflexivity|]. split; [apply (placed_folded _ _ _ _ _ _ H Fold)|].
  exists (S a). split; [unfold children; rewrite E; reflexivity|]. intros x c I. pose proof (placed_child _ _ _ _ _ _ _ _ H I) as Hx. split; [exists a; exact Hx|].
  split; [|apply tops_in in I; destruct I as [I _]; apply starts_ge in I; lia].
  unfold parents. rewrite (deep_get x c a Hx); [reflexivity|]. intros k T. pose proof (forest_fun _ _ _ _ _ H (top_forest a k T)). discriminate.
Qed.

Definition NN (a : nat) : Prop := N a \/ exists g q, forest a g [q].
Lemma NN_carries a : NN a -> In a (t_sources t) \/ (n0 <= a)%nat -> exists g, carries a g.
Proof.
  intros [Na|(g & q & H)] C.
  - destruct C as [C|C]; [|pose proof (wf_bound _ _ _ W a Na); lia]. destruct (P3_source a C) as (f & g & I). exists g. apply (source_carries a f g I).
  - exists g. apply (forest_carries a g q H).
Qed.
Lemma forest_up a g q : forest a g [q] -> exists u, NN u /\ (In u (t_sources t) \/ (n0 <= u)%nat) /\ parents h1 a = [u] /\ In a (children h1 u).
Proof.
  intros H. destruct (placed_parent _ _ _ _ _ _ H) as [[E _]|(q' & gq & pq & E & Hq & I)]; [discriminate|]. injection E as <-.
  destruct (forest_top_dec q gq pq Hq) as [[-> (k & T)]|[(r & ->) NT]].
  - destruct (P3_top q k T) as (s & Q). destruct (P3_in _ _ _ Q) as [Js _].
    assert (K : starts (S q) (gchildren k) = starts (S q) (gchildren gq)).
    { pose proof (plant_get h0 gs _ _ _ Hq) as E1. rewrite (plant_get h0 gs _ _ _ (top_forest q k T)) in E1. injection E1 as _ E1 _. exact E1. }
    destruct (tops_in _ _ _ _ I) as [I1 _]. rewrite <- K in I1. pose proof I1 as I2. apply starts_in in I1. destruct I1 as (c & I1).
    exists s. split; [left; apply source_old, Js|]. split; [left; exact Js|]. destruct adopt_facts as (_ & G1 & G2 & _). split.
    + unfold parents. rewrite (G2 s q k a c Q I1). reflexivity.
    + unfold children. rewrite (G1 s q k Q). unfold adopted. destruct (source_old s Js) as (_ & _ & E0). change (n_children (get h0 s)) with (children h0 s). rewrite E0. cbn [app]. destruct (3 <? _)%nat; exact I2.
  - exists q. split; [right; eauto|]. split; [right; apply (plant_range _ _ _ _ _ Hq)|]. split; [unfold parents; rewrite (deep_get a g q H NT); reflexivity|].
    destruct (forest_get q gq r Hq) as (u & E). unfold children. rewrite E. apply tops_in in I. apply I.
Qed.
Lemma old_get a : N a -> ~ In a (t_sources t) -> get h1 a = get h0 a.
Proof.
  intros Na Ns. pose proof (wf_bound _ _ _ W a Na) as B. destruct adopt_facts as (_ & _ & _ & G3). rewrite G3; [apply plant_old, B|exact Ns|].
  intros f g c T J. pose proof (kid_forest f g a c T J) as H. apply plant_range in H. lia.
Qed.
Lemma old_field {B} (f : node Z -> B) a : N a -> (forall l n, f (set_children l n) = f n) -> (forall l n, f (set_expands l n) = f n) -> f (get h1 a) = f (get h0 a).
Proof.
  intros Na F1 F2. destruct (in_dec Nat.eq_dec a (t_sources t)) as [I|I]; [|rewrite old_get by assumption; reflexivity].
  destruct (P3_source a I) as (x & g & Q). destruct adopt_facts as (_ & G1 & _). rewrite (G1 a x g Q). unfold adopted, add_tag. destruct (3 <? _)%nat; [rewrite F2|]; apply F1.
Qed.
Lemma carries_child a g x : carries a g -> In x (children h1 a) -> (exists c f, forest x c [f]) /\ parents h1 x = [a] /\ (a < x)%nat.
Proof. intros (_ & _ & b & E & H) I. rewrite E in I. apply starts_in in I. destruct I as (c & I). destruct (H x c I) as ((f & Hf) & P & B). eauto. Qed.
Lemma NN_child a b : NN a -> In b (children h1 a) -> NN b.
Proof.
  intros Ha I. destruct (in_dec Nat.eq_dec a (t_sources t)) as [J|J].
  - destruct (NN_carries a Ha (or_introl J)) as (g & C). destruct (carries_child a g b C I) as ((c & f & H) & _). right. eauto.
  - destruct Ha as [Na|(g & q & H)].
    + left. unfold children in I. rewrite old_get in I by assumption. apply (wf_child _ _ _ W a b Na I).
    + destruct (carries_child a g b (forest_carries a g q H) I) as ((c & f & H') & _). right. eauto.
Qed.
Lemma NN_parent a b : NN a -> In b (parents h1 a) -> NN b.
Proof.
  intros [Na|(g & q & H)] I.
  - left. unfold parents in I. rewrite (old_field n_parents) in I by auto. apply (wf_parent _ _ _ W a b Na I).
  - destruct (forest_up a g q H) as (u & Hu & _ & E & _). rewrite E in I. destruct I as [<-|[]]. exact Hu.
Qed.
Lemma NN_links a b : NN a -> NN b -> (In b (children h1 a) <-> In a (parents h1 b)).
Proof.
  intros Ha Hb. destruct Hb as [Nb|(g & q & H)].
  - assert (EP : parents h1 b = parents h0 b) by (unfold parents; apply (old_field n_parents); auto). rewrite EP.
    destruct (in_dec Nat.eq_dec a (t_sources t)) as [J|J].
    + destruct (source_old a J) as (_ & Na & E0). split; intros I; exfalso.
      * destruct (NN_carries a Ha (or_introl J)) as (g & C). destruct (carries_child a g b C I) as ((c & f & H) & _). apply plant_range in H. pose proof (wf_bound _ _ _ W b Nb). lia.
      * apply (wf_links _ _ _ W a b Na Nb) in I. rewrite E0 in I. destruct I.
    + destruct Ha as [Na|(g & q & H)].
      * unfold children. rewrite old_get by assumption. apply (wf_links _ _ _ W a b Na Nb).
      * split; intros I; exfalso.
        -- destruct (carries_child a g b (forest_carries a g q H) I) as ((c & f & H') & _). apply plant_range in H'. pose proof (wf_bound _ _ _ W b Nb). lia.
        -- apply (wf_parent _ _ _ W b a Nb) in I. apply (wf_bound _ _ _ W) in I. apply plant_range in H. lia.
  - destruct (forest_up b g q H) as (u & Hu & _ & E & Iu). rewrite E. split; [|intros [<-|[]]; exact Iu]. intros I. left.
    destruct (in_dec Nat.eq_dec a (t_sources t)) as [J|J].
    + destruct (NN_carries a Ha (or_introl J)) as (k & C). destruct (carries_child a k b C I) as (_ & P & _). congruence.
    + destruct Ha as [Na|(k & r & H')].
      * exfalso. unfold children in I. rewrite old_get in I by assumption. apply (wf_child _ _ _ W a b Na) in I. apply (wf_bound _ _ _ W) in I. apply plant_range in H. lia.
      * destruct (carries_child a k b (forest_carries a k r H') I) as (_ & P & _). congruence.
Qed.

(** ** the loop *)
Record linv (h : heap Z) (u : tree Z) (q D : list nat) : Prop := {
  li_len : length h = length h1;
  li_same : forall x, get h x = set_level (n_level (get h x)) (get h1 x);
  li_roots : t_roots u = t_roots t;
  li_size : t_size u = t_size t;
  li_last : last (t_levels u) [] = t_sources u;
  li_vals : t_source_values u = map (value h1) (t_sources u);
  li_sorted : StronglySorted Z.le (map (value h1) (t_sources u));
  li_count : t_n_sources u = Z.of_nat (length (t_sources u));
  li_nd : NoDup (t_sources u);
  li_NN : forall x, In x D \/ In x (t_sources u) -> NN x /\ (In x (t_sources t) \/ (n0 <= x)%nat);
  li_q : forall x, In x q <-> In x (t_sources u) /\ children h1 x <> [];
  li_q_nd : NoDup q;
  li_D_nd : NoDup D;
  li_D : forall d, In d D -> ~ In d (t_sources u) /\ children h1 d <> [];
  li_from : forall x, In x D \/ In x (t_sources u) -> In x (t_sources t) \/ exists d, parents h1 x = [d] /\ In d D;
  li_orig : forall s, In s (t_sources t) -> In s D \/ In s (t_sources u);
  li_kids : forall d x, In d D -> In x (children h1 d) -> In x D \/ In x (t_sources u);
  li_items : exists l, Permutation (map fst l) (t_sources u) /\ (forall x g, In (x, g) l -> carries x g) /\
    Permutation (flat_map gleaves (map snd l)) (flat_map gleaves gs);
  li_cur : t_current_level t <= t_current_level u;
  li_lev_open : forall x, In x (t_sources u) -> n_level (get h x) = Some (t_current_level u);
  li_lev_D : forall d, In d D -> exists l, n_level (get h d) = Some l /\ t_current_level t <= l < t_current_level u;
  li_lev_edge : forall d x, In d D -> In x (children h1 d) -> exists l m, n_level (get h d) = Some l /\ n_level (get h x) = Some m /\ l < m;
  li_lev_old : forall x, ~ In x D -> ~ In x (t_sources u) -> get h x = get h1 x
}.

Lemma linv_step h u q D p rest : linv h u q D -> q = p :: rest -> exists h' u',
  tree_add h u (n_children (get h p)) 0 = Ok (h', u') /\
  linv h' u' (rest ++ filter (fun a => negb (length (n_children (get h' a)) =? 0)%nat) (n_children (get h p))) (p :: D).
Proof.
  intros L ->. destruct L as [Ln Sm Ro Si La Va So Co ND NNs Q QN DN DD Fr Or Ki It Cu LO LD LE LX].
  destruct (proj1 (Q p) (or_introl eq_refl)) as [Sp Kp].
  assert (GC : forall x, n_children (get h x) = children h1 x) by (intros x; rewrite Sm; reflexivity).
  assert (GV : forall x, n_value (get h x) = value h1 x) by (intros x; rewrite Sm; reflexivity).
  assert (GP : forall x, n_parents (get h x) = parents h1 x) by (intros x; rewrite Sm; reflexivity).
  destruct (NNs p (or_intror Sp)) as [NNp Up]. destruct (NN_carries p NNp Up) as (g & C). pose proof C as C0. destruct C as (Cv & Cf & b & Ck & Cc).
  set (kids := children h1 p) in *.
  assert (KP : forall x, In x kids -> parents h1 x = [p] /\ (p < x)%nat /\ NN x /\ (n0 <= x)%nat).
  { intros x I. destruct (carries_child p g x C0 I) as ((c & f & H) & P1 & P2). split; [exact P1|]. split; [exact P2|]. split; [right; eauto|]. apply plant_range in H. lia. }
  assert (KN : forall x, In x kids -> ~ In x D /\ ~ In x (t_sources u)).
  { intros x I. destruct (KP x I) as (P1 & P2 & P3' & P4). assert (X : In x D \/ In x (t_sources u) -> False); [|tauto]. intros J. destruct (Fr x J) as [J'|(d & E & Jd)].
    - apply source_old in J'. lia.
    - rewrite P1 in E. injection E as <-. apply (proj1 (DD p Jd)). exact Sp. }
  assert (KND : NoDup kids) by (rewrite Ck; apply starts_nd).
  set (kept := filter (fun a => negb (existsb (Nat.eqb a) [p])) (t_sources u)).
  assert (KI : forall x, In x kept <-> In x (t_sources u) /\ x <> p).
  { intros x. unfold kept. rewrite filter_In. cbn [existsb]. rewrite orb_false_r. destruct (Nat.eqb_spec x p); cbn; intuition congruence. }
  assert (KEN : NoDup kept) by (apply NoDup_filter, ND).
  set (src := fold_left (fun l a => insort_by (node_le h) a l) kids kept).
  assert (PS : Permutation src (kids ++ kept)) by apply fold_insort_perm.
  assert (SI : forall x, In x src <-> In x kids \/ In x kept).
  { intros x. rewrite <- in_app_iff. split; apply Permutation_in; [exact PS|symmetry; exact PS]. }
  assert (SND : NoDup src).
  { apply (Permutation_NoDup (Permutation_sym PS)). apply nodup_app; [exact KEN|exact KND|]. intros x I J. apply KI in J. apply (proj2 (KN x I)). apply J. }
  assert (B : forall x, NN x -> (x < length h)%nat).
  { intros x Nx. rewrite Ln. destruct adopt_facts as (L1 & _). rewrite L1. destruct Nx as [Nx|(k & r & Hk)]; [|apply plant_range in Hk; lia]. pose proof (wf_bound _ _ _ W x Nx). rewrite plant_length. lia. }
  assert (SB : forall x, In x src -> NN x).
  { intros x I. apply SI in I. destruct I as [I|I]; [apply KP, I|]. apply KI in I. apply (NNs x). right. apply I. }
  set (h' := set_levels (t_current_level u + 1) src h).
  assert (GE : forall {F} (f : node Z -> F) x, (forall o n, f (set_level o n) = f n) -> f (get h' x) = f (get h x)) by (intros F f x Hf; apply get_set_levels, Hf).
  assert (GI : forall x, In x src -> n_level (get h' x) = Some (t_current_level u + 1)).
  { intros x I. unfold h'. rewrite get_set_levels_in; [reflexivity|exact I|apply B, SB, I]. }
  assert (GO : forall x, ~ In x src -> get h' x = get h x) by (intros x I; apply get_set_levels_other, I).
  exists h', (MkTree (t_roots u) src (t_levels u ++ [src]) (fl_append tuple_eqb (t_source_values u) (t_past u)) (t_current_level u + 1) (node_values h src) (Z.of_nat (length src)) (t_size u + 0)).
  assert (pN : ~ In p src). { intros I. apply SI in I. destruct I as [I|I]; [apply (proj2 (KN p I)), Sp|apply KI in I; tauto]. }
  assert (DN' : forall d, In d D -> ~ In d src). { intros d I J. apply SI in J. destruct J as [J|J]; [apply (proj1 (KN d J)), I|]. apply KI in J. apply (proj1 (DD d I)), J. }
  split.
  { unfold tree_add. rewrite GC. fold kids. destruct kids as [|k0 ks] eqn:EK; [contradiction|]. rewrite GP, (proj1 (KP k0 (or_introl eq_refl))), La. reflexivity. }
  constructor; cbn [t_roots t_sources t_levels t_past t_current_level t_source_values t_n_sources t_size].
  - unfold h'. rewrite set_levels_length. exact Ln.
  - intros x. destruct (in_dec Nat.eq_dec x src) as [I|I].
    + unfold h'. rewrite get_set_levels_in by (auto). rewrite (Sm x). reflexivity.
    + rewrite GO by exact I. apply Sm.
  - exact Ro.
  - lia.
  - rewrite last_last. reflexivity.
  - unfold node_values. apply map_ext. exact GV.
  - assert (E : map (value h1) src = map (value h) src) by (apply map_ext; intros x; symmetry; apply GV). rewrite E. apply sorted_nodes.
    apply fold_insort_sorted; [apply node_le_total|apply node_le_trans|]. apply sorted_filter. apply sorted_nodes.
    assert (E' : map (value h) (t_sources u) = map (value h1) (t_sources u)) by (apply map_ext; intros x; apply GV). rewrite E'. exact So.
  - reflexivity.
  - exact SND.
  - intros x [[<-|I]|I].
    + auto.
    + apply NNs. auto.
    + apply SI in I. destruct I as [I|I]; [destruct (KP x I) as (_ & _ & X & Y); auto|]. apply KI in I. apply NNs. right. apply I.
  - intros x. rewrite in_app_iff, filter_In, SI, KI, GC. fold kids. rewrite GE by reflexivity. rewrite GC.
    assert (X : negb (length (children h1 x) =? 0)%nat = true <-> children h1 x <> []) by (destruct (children h1 x); cbn; split; congruence).
    rewrite X. inversion QN as [|? ? NI QN']; subst. specialize (Q x). cbn [In] in Q. split.
    + intros [J|[J1 J2]]; [|auto]. destruct (proj1 Q (or_intror J)) as [J1 J2]. split; [|exact J2]. right. split; [exact J1|]. intros ->. apply NI, J.
    + intros [[J|[J1 J3]] J2]; [auto|]. destruct (proj2 Q (conj J1 J2)) as [E|J]; [congruence|auto].
  - inversion QN as [|? ? NI QN']; subst. apply nodup_app; [apply NoDup_filter; rewrite GC; exact KND|exact QN'|].
    intros x I J. apply filter_In in J. destruct J as [J _]. rewrite GC in J. apply (proj2 (KN x J)). apply Q. right. exact I.
  - constructor; [|exact DN]. intros I. apply (proj1 (DD p I)). exact Sp.
  - intros d [<-|I]; [split; [exact pN|exact Kp]|]. split; [apply DN', I|apply DD, I].
  - intros x [[<-|I]|I].
    + destruct (Fr p (or_intror Sp)) as [J|(d & E & J)]; [auto|]. right. exists d. split; [exact E|right; exact J].
    + destruct (Fr x (or_introl I)) as [J|(d & E & J)]; [auto|]. right. exists d. split; [exact E|right; exact J].
    + apply SI in I. destruct I as [I|I].
      * right. exists p. split; [apply KP, I|left; reflexivity].
      * apply KI in I. destruct (Fr x (or_intror (proj1 I))) as [J|(d & E & J)]; [auto|]. right. exists d. split; [exact E|right; exact J].
  - intros s I. destruct (Or s I) as [J|J]; [left; right; exact J|]. destruct (Nat.eq_dec s p) as [->|Ne]; [left; left; reflexivity|]. right. apply SI. right. apply KI. auto.
  - assert (X : forall x, In x D \/ In x (t_sources u) -> In x (p :: D) \/ In x src).
    { intros x [J|J]; [left; right; exact J|]. destruct (Nat.eq_dec x p) as [->|Ne]; [left; left; reflexivity|]. right. apply SI. right. apply KI. auto. }
    intros d x [<-|I] J; [right; apply SI; left; exact J|]. apply X, (Ki d x I J).
  - destruct It as (l & It1 & It2 & It3). assert (J : In p (map fst l)) by (apply (Permutation_in _ (Permutation_sym It1)), Sp).
    apply in_map_iff in J. destruct J as ([p' gp] & E & J). cbn in E. subst p'. destruct (in_split _ _ J) as (l1 & l2 & ->).
    destruct (It2 p gp J) as (Gv & Gf & b' & Gk & Gc). fold kids in Gk.
    exists (tops b' (gchildren gp) ++ l1 ++ l2). split; [|split].
    + rewrite map_app, tops_fst. rewrite <- Gk. rewrite PS. apply Permutation_app_head.
      rewrite map_app in It1. cbn [map fst] in It1. rewrite <- Permutation_middle in It1. rewrite <- map_app in It1.
      assert (ND1 : NoDup (p :: map fst (l1 ++ l2))) by (apply (Permutation_NoDup (Permutation_sym It1)), ND). inversion ND1 as [|? ? NI ND2]; subst.
      apply NoDup_Permutation; [exact ND2|exact KEN|]. intros x. rewrite KI. split.
      * intros I. split; [apply (Permutation_in _ It1); right; exact I|]. intros ->. contradiction.
      * intros [I Ne]. apply (Permutation_in _ (Permutation_sym It1)) in I. destruct I as [I|I]; [congruence|exact I].
    + intros x c I. apply in_app_iff in I. destruct I as [I|I].
      * destruct (Gc x c I) as ((f & H) & _). apply (forest_carries x c f H).
      * apply It2. apply in_app_iff in I. apply in_app_iff. destruct I as [I|I]; [left; exact I|right; right; exact I].
    + rewrite <- It3. rewrite !map_app, tops_snd. cbn [map snd]. rewrite !flat_map_app. cbn [flat_map].
      assert (E : gleaves gp = flat_map gleaves (gchildren gp)).
      { destruct gp as [v ts [|c cs]]; [|apply gleaves_node; discriminate]. cbn [gchildren starts] in Gk. congruence. }
      rewrite E. rewrite !app_assoc. apply Permutation_app_tail. apply Permutation_app_comm.
  - lia.
  - exact GI.
  - intros d [<-|I].
    + exists (t_current_level u). split; [rewrite GO by exact pN; apply LO, Sp|lia].
    + destruct (LD d I) as (l & E & R). exists l. split; [rewrite GO by (apply DN', I); exact E|lia].
  - intros d x [<-|I] J.
    + exists (t_current_level u), (t_current_level u + 1). split; [rewrite GO by exact pN; apply LO, Sp|]. split; [apply GI, SI; left; exact J|lia].
    + destruct (LE d x I J) as (l & m & E1 & E2 & R). destruct (LD d I) as (l' & E3 & R3). assert (l' = l) by congruence. subst l'.
      destruct (in_dec Nat.eq_dec x src) as [K|K].
      * exists l, (t_current_level u + 1). split; [rewrite GO by (apply DN', I); exact E1|]. split; [apply GI, K|lia].
      * exists l, m. rewrite !GO by (try apply DN', I; exact K). auto.
  - intros x I J. rewrite GO by exact J. apply LX.
    + intros K. apply I. right. exact K.
    + intros K. destruct (Nat.eq_dec x p) as [->|Ne]; [apply I; left; reflexivity|]. apply J, SI. right. apply KI. auto.
Qed.

Lemma linv_run : forall fuel h u q D, linv h u q D -> (length h1 <= fuel + length D)%nat ->
  exists h' u' D', attach_loop fuel h u q = Ok (h', u') /\ linv h' u' [] D'.
Proof.
  induction fuel as [|fuel IH]; intros h u q D L F; (destruct q as [|p q]; [exists h, u, D; split; [reflexivity|exact L]|]).
  - exfalso. assert (I : incl (p :: D) (seq 0 (length h1))).
    { intros x I. apply in_seq. assert (J : In x D \/ In x (t_sources u)). { destruct I as [<-|I]; [right; apply (li_q _ _ _ _ L); left; reflexivity|left; exact I]. }
      destruct (li_NN _ _ _ _ L x J) as [Nx _]. destruct adopt_facts as (L1 & _). rewrite L1. destruct Nx as [Nx|(k & r & Hk)]; [|apply plant_range in Hk; lia]. pose proof (wf_bound _ _ _ W x Nx). rewrite plant_length. lia. }
    apply NoDup_incl_length in I; [rewrite seq_length in I; cbn [length] in I; lia|]. constructor; [|apply (li_D_nd _ _ _ _ L)].
    intros J. apply (proj1 (li_D _ _ _ _ L p J)). apply (li_q _ _ _ _ L). left. reflexivity.
  - destruct (linv_step h u (p :: q) D p q L eq_refl) as (h' & u' & E & L'). cbn [attach_loop]. rewrite E. cbn [bind].
    destruct (IH _ _ _ _ L') as (h2 & u2 & D2 & E2 & L2); [cbn [length]; lia|]. exists h2, u2, D2. split; [exact E2|exact L2].
Qed.

Hypothesis Count : t_n_sources t = Z.of_nat (length (t_sources t)).
Hypothesis Total : zsum (t_source_values t) = zsum (map (value h0) (t_roots t)).
Hypothesis Open : forall a, In a (t_sources t) -> level h0 a = Some (t_current_level t).
Hypothesis Inner : forall a, N a -> ~ In a (t_sources t) -> exists l, level h0 a = Some l /\ l < t_current_level t.

Lemma linv_start : linv h1 t (filter (fun a => negb (length (n_children (get h1 a)) =? 0)%nat) (t_sources t)) [].
Proof.
  assert (V : map (value h1) (t_sources t) = map (value h0) (t_sources t)).
  { apply map_ext_in. intros x I. apply (old_field n_value); [apply source_old, I|reflexivity|reflexivity]. }
  constructor.
  - reflexivity.
  - intros x. destruct (get h1 x). reflexivity.
  - reflexivity.
  - reflexivity.
  - apply (wf_last _ _ _ W).
  - rewrite V. apply (wf_values _ _ _ W).
  - rewrite V, <- (wf_values _ _ _ W). apply (wf_sorted _ _ _ W).
  - exact Count.
  - apply (wf_open_nd _ _ _ W).
  - intros x [[]|I]. split; [left; apply source_old, I|left; exact I].
  - intros x. rewrite filter_In. change (n_children (get h1 x)) with (children h1 x).
    assert (X : negb (length (children h1 x) =? 0)%nat = true <-> children h1 x <> []) by (destruct (children h1 x); cbn; split; congruence). rewrite X. reflexivity.
  - apply NoDup_filter, (wf_open_nd _ _ _ W).
  - constructor.
  - intros d [].
  - intros x [[]|I]. left. exact I.
  - auto.
  - intros d x [].
  - exists (map (fun e => (fst e, snd (snd e))) P3). rewrite !map_map. cbn [fst snd]. split; [|split].
    + change (Permutation (map fst P3) (t_sources t)). rewrite P3_fst. reflexivity.
    + intros x g I. apply in_map_iff in I. destruct I as ([s [f k]] & E & I). cbn in E. injection E as <- <-. apply (source_carries s f k I).
    + rewrite <- (map_map snd snd), P3_snd, tops_snd. reflexivity.
  - lia.
  - intros x I. rewrite (old_field n_level); [apply Open, I|apply source_old, I|reflexivity|reflexivity].
  - intros d [].
  - intros d x [].
  - reflexivity.
Qed.

Lemma attach_loop_more {V} {VV : Value V} : forall f (h : heap V) u q r, attach_loop f h u q = Ok r -> forall g, (f <= g)%nat -> attach_loop g h u q = Ok r.
Proof.
  induction f as [|f IH]; intros h u q r E g L; (destruct q as [|p q]; [destruct g; exact E|]); [discriminate|]. destruct g as [|g]; [lia|].
  cbn [attach_loop] in *. destruct (tree_add _ _ _ _) as [[h' u']|]; [|discriminate]. cbn [bind] in *. apply (IH _ _ _ _ E). lia.
Qed.

Lemma attached_nodes h' u D : linv h' u [] D -> (forall x, In x (t_sources u) -> children h1 x = []) /\ forall x, NN x -> In x D \/ In x (t_sources u) \/ (N x /\ ~ In x (t_sources t)).
Proof.
  intros L. assert (C : forall x, In x (t_sources u) -> children h1 x = []).
  { intros x I. destruct (children h1 x) eqn:E; [reflexivity|]. assert (X : In x []) by (apply (li_q _ _ _ _ L); split; [exact I|congruence]). destruct X. }
  split; [exact C|].
  assert (Sx : forall x, In x (t_sources t) -> In x D \/ In x (t_sources u) \/ (N x /\ ~ In x (t_sources t))) by (intros x I; destruct (li_orig _ _ _ _ L x I); auto).
  assert (A : forall n x, (x < n)%nat -> NN x -> In x D \/ In x (t_sources u) \/ (N x /\ ~ In x (t_sources t))); [|intros x; apply (A (S x)); lia].
  induction n as [|n IH]; intros x B Nx; [lia|]. destruct Nx as [Nx|(g & q & H)].
  - destruct (in_dec Nat.eq_dec x (t_sources t)) as [I|I]; [apply Sx, I|auto].
  - destruct (forest_up x g q H) as (p & Np & Up & E & I). destruct (NN_carries p Np Up) as (k & Cp). destruct (carries_child p k x Cp I) as (_ & _ & Lt).
    assert (J : In p D \/ In p (t_sources u)).
    { destruct (IH p ltac:(lia) Np) as [J|[J|[J1 J2]]]; [auto|auto|]. destruct Up as [Up|Up]; [contradiction|]. apply (wf_bound _ _ _ W) in J1. lia. }
    destruct J as [J|J]; [|rewrite (C p J) in I; destruct I]. destruct (li_kids _ _ _ _ L p x J I); auto.
Qed.

Lemma kid_values a g : carries a g -> map (value h1) (children h1 a) = map gvalue (gchildren g).
Proof.
  intros (_ & _ & b & E & H). rewrite E.
  assert (X : forall x c, In (x, c) (tops b (gchildren g)) -> value h1 x = gvalue c).
  { intros x c I. destruct (H x c I) as ((f & Hf) & _). apply (forest_carries x c f Hf). }
  clear -X. revert b X. induction (gchildren g) as [|c cs IH]; intros b X; [reflexivity|]. cbn [starts map combine] in *. f_equal; [apply X; left; reflexivity|]. apply IH. intros x d I. apply X. right. exact I.
Qed.
Lemma carries_length a g : carries a g -> length (children h1 a) = length (gchildren g).
Proof. intros (_ & _ & b & E & _). rewrite E. apply starts_length. Qed.
Lemma const_values w (l : list gnode) : (forall c, In c l -> gvalue c = w) -> map gvalue l = repeat w (length l).
Proof. induction l as [|c l IH]; intros H; [reflexivity|]. cbn. f_equal; [apply H; left; reflexivity|]. apply IH. intros d I. apply H. right. exact I. Qed.
Lemma carries_flow a g : carries a g -> children h1 a = [] \/ splits h1 a.
Proof.
  intros C. pose proof (kid_values a g C) as V. pose proof (carries_length a g C) as Ln. pose proof C as (Cv & Cf & _). inversion Cf as [v E|w cs L EW F E]; subst g.
  - left. cbn [gchildren] in Ln. destruct (children h1 a); [reflexivity|discriminate].
  - right. cbn [gchildren] in *. cbn [gvalue] in Cv. split; [lia|]. split.
    + apply Forall_forall. intros c I. apply (carries_child a _ c C I).
    + rewrite V, (const_values w cs EW), zsum_repeat, Cv. lia.
Qed.
Lemma carries_tags a g own : carries a g -> n_expands (get h1 a) = (if (3 <? length (parents h1 a))%nat then [TMerge 3] else []) ++ own ->
  own = (if (3 <? length (children h1 a))%nat then [TDivide (Z.of_nat (length (children h1 a)))] else []) -> tagged h1 a.
Proof.
  intros C E ->. eexists. split; [exact E|]. pose proof (kid_values a g C) as V. pose proof (carries_length a g C) as Ln. pose proof C as (Cv & Cf & _). split.
  - intros L2. rewrite V. inversion Cf as [v Eg|w cs L EW F Eg]; subst g; cbn [gchildren gvalue] in *; [cbn [length] in Ln; lia|]. rewrite Ln.
    pose proof (st_divide (value h1 a) (map gvalue cs) (Z.of_nat (length cs)) w) as X.
    replace (3 <? Z.of_nat (length cs)) with (3 <? length cs)%nat in X by (destruct (Nat.ltb_spec 3 (length cs)), (Z.ltb_spec 3 (Z.of_nat (length cs))); lia).
    apply X; [lia|lia|]. rewrite Nat2Z.id. apply const_values, EW.
  - intros L1. destruct (Nat.ltb_spec 3 (length (children h1 a))); [lia|reflexivity].
Qed.

(** ** the price of the completed network *)
Lemma group_price g pre : folded g -> (forall v, In v (gleaves g) -> 0 < v) -> (2 <= length (gchildren g))%nat -> pre = [] \/ pre = [TMerge 3] ->
  split_price (gvalue g) (pre ++ (if (3 <? length (gchildren g))%nat then [TDivide (Z.of_nat (length (gchildren g)))] else [])) = gprice g.
Proof.
  intros Fg Pg L Hp. pose proof Fg as Fg'. inversion Fg' as [v E|w cs Lc EW Fc E]; subst g; [cbn in L; lia|]. cbn [gchildren gvalue] in *.
  assert (Hw : 0 < w). { destruct cs as [|c cs]; [cbn in Lc; lia|]. rewrite <- (EW c (or_introl eq_refl)). apply gvalue_pos; [apply Fc; left; reflexivity|]. intros v I. apply Pg. rewrite gleaves_node by discriminate. cbn [flat_map]. apply in_or_app. left. exact I. }
  transitivity (split_price (w * Z.of_nat (length cs)) (if (3 <? length cs)%nat then [TDivide (Z.of_nat (length cs))] else [])); [destruct Hp as [-> | ->]; reflexivity|].
  assert (GP : gprice (GNode (w * Z.of_nat (length cs)) (if (3 <? length cs)%nat then [TDivide (Z.of_nat (length cs))] else []) cs) = dprice (w * Z.of_nat (length cs), Z.of_nat (length cs))) by (unfold gprice; cbn [gchildren gvalue]; destruct cs; [cbn in Lc; lia|reflexivity]).
  rewrite GP. unfold dprice. cbn [fst snd]. destruct (Nat.ltb_spec 3 (length cs)) as [H|H]; [reflexivity|]. cbn [split_price]. unfold divide_cost.
  destruct (Z.leb_spec (w * Z.of_nat (length cs)) 1) as [X|X]; [exfalso; nia|]. assert (K : Z.of_nat (length cs) = 2 \/ Z.of_nat (length cs) = 3) by lia. destruct K as [-> | ->]; reflexivity.
Qed.
Lemma leaf_price g : gchildren g = [] -> gprice g = 0.
Proof. unfold gprice. intros ->. reflexivity. Qed.
Lemma group_node (h : heap Z) a g pre : folded g -> (forall v, In v (gleaves g) -> 0 < v) -> length (children h a) = length (gchildren g) -> value h a = gvalue g -> pre = [] \/ pre = [TMerge 3] ->
  n_expands (get h a) = pre ++ (if (3 <? length (gchildren g))%nat then [TDivide (Z.of_nat (length (gchildren g)))] else []) ->
  node_price h a = gprice g + merge_cost (Z.of_nat (length (parents h a))) 1.
Proof.
  intros Fg Pg EL EV Hp ET. unfold node_price. rewrite EL, EV, ET. destruct (Nat.leb_spec 2 (length (gchildren g))) as [L|L]; [rewrite (group_price g pre Fg Pg L Hp); reflexivity|].
  rewrite leaf_price; [reflexivity|]. inversion Fg; subst g; [reflexivity|]. cbn [gchildren] in L. lia.
Qed.
Lemma folded_tags g : folded g -> gtags g = if (3 <? length (gchildren g))%nat then [TDivide (Z.of_nat (length (gchildren g)))] else [].
Proof. intros F. inversion F; reflexivity. Qed.
Lemma forest_price a g q : forest a g [q] -> node_price h1 a = gprice g.
Proof.
  intros H. pose proof (forest_carries a g q H) as C. destruct (forest_get a g q H) as (u & E). pose proof C as (Cv & Cf & _).
  rewrite (group_node h1 a g [] Cf (fun v I => Pos v (placed_leaves _ _ _ _ _ _ v H I)) (carries_length a g C) Cv (or_introl eq_refl)); [unfold parents; rewrite E; cbn [set_parents n_parents length]; change (merge_cost (Z.of_nat 1) 1) with 0; lia|].
  rewrite E. cbn [app]. apply folded_tags, Cf.
Qed.
Lemma source_price s f g : In (s, (f, g)) P3 -> node_price h1 s = node_price h0 s + gprice g.
Proof.
  intros I. pose proof (source_carries s f g I) as C. pose proof C as (Cv & Cf & _). destruct (P3_in _ _ _ I) as [Js T]. destruct (source_old s Js) as (B & Ns & E0). destruct (wf_tags _ _ _ W s Ns) as (own & T1 & _ & T3).
  rewrite E0 in T3. specialize (T3 ltac:(cbn; lia)). subst own. rewrite app_nil_r in T1. destruct adopt_facts as (_ & G1 & _).
  rewrite (group_node h1 s g (n_expands (get h0 s)) Cf (fun v J => Pos v (placed_leaves _ _ _ _ _ _ v (top_forest f g T) J)) (carries_length s g C) Cv).
  - unfold node_price. rewrite E0. cbn [length Nat.leb]. unfold parents. rewrite (old_field n_parents) by auto. lia.
  - rewrite T1. destruct (3 <? _)%nat; auto.
  - rewrite (G1 s f g I). unfold adopted. change (n_children (get h0 s)) with (children h0 s). rewrite E0. cbn [app]. rewrite starts_length. destruct (3 <? length (gchildren g))%nat; [reflexivity|]. cbn. rewrite app_nil_r. reflexivity.
Qed.
Lemma completed_price ns0 : NoDup ns0 -> (forall a, In a ns0 <-> N a) -> NoDup (ns0 ++ blocks n0 gs) /\ (forall a, In a (ns0 ++ blocks n0 gs) <-> NN a) /\
  zsum (map (node_price h1) (ns0 ++ blocks n0 gs)) = zsum (map (node_price h0) ns0) + zsum (map dprice (flat_map ginner gs)).
Proof.
  intros ND IN. split; [|split].
  - apply nodup_app; [apply blocks_nd|exact ND|]. intros a J I. apply blocks_range in I. apply IN, (wf_bound _ _ _ W) in J. lia.
  - intros a. rewrite in_app_iff, IN. unfold NN. rewrite (blocks_in gs n0 a). reflexivity.
  - rewrite map_app, zsum_app. rewrite (zsum_marks (map (fun e => (fst e, gprice (snd (snd e)))) P3) (node_price h1) (node_price h0) ns0 ND).
    + rewrite map_map. cbn [snd]. rewrite <- (map_map (fun e => snd (snd e)) gprice), <- (map_map snd snd), P3_snd, tops_snd.
      rewrite <- (blocks_price gs n0 (node_price h1)) by (intros a g q H; apply (forest_price a g q H)). lia.
    + rewrite map_map. change (NoDup (map fst P3)). rewrite P3_fst. apply (wf_open_nd _ _ _ W).
    + intros s z I. apply in_map_iff in I. destruct I as ([s' [f g]] & E & I). cbn [fst snd] in E. injection E as <- <-. split; [apply IN, source_old, (P3_in _ _ _ I)|apply (source_price s' f g I)].
    + intros a Ia Na. rewrite map_map in Na. change (~ In a (map fst P3)) in Na. rewrite P3_fst in Na. unfold node_price, children, parents, value. rewrite (old_get a); [reflexivity|apply IN, Ia|exact Na].
Qed.

Lemma attach_complete : exists h' t', (forall fuel, (length hp <= fuel)%nat -> attach_leaves fuel hp t (snd (plant h0 gs)) = Ok (h', t')) /\ network h' t' (map (value h0) (t_roots t)) /\ levelled h' t' /\ (forall a, in_tree h' t' a -> tagged h' a) /\ Permutation (t_source_values t') (flat_map gleaves gs) /\ t_roots t' = t_roots t /\ t_size t' = t_size t /\ (forall a, in_tree h0 t a -> in_tree h' t' a /\ value h' a = value h0 a /\ parents h' a = parents h0 a /\ incl (children h0 a) (children h' a)) /\ (forall a, in_tree h0 t a -> ~ In a (t_sources t) -> get h' a = get h0 a) /\ (forall a, in_tree h' t' a -> exists b, in_tree h0 t b /\ value h' a <= value h0 b) /\ (forall a c, in_tree h' t' a -> In (TExtract c) (n_expands (get h' a)) -> in_tree h0 t a /\ get h' a = get h0 a) /\ (forall ns0, lists_tree h0 t ns0 -> exists ns, lists_tree h' t' ns /\ zsum (map (node_price h') ns) = zsum (map (node_price h0) ns0) + zsum (map dprice (flat_map ginner gs))).
Proof.
  destruct adopt_facts as (L1 & G1 & G2 & _).
  destruct (linv_run (length hp) _ _ _ _ linv_start) as (h' & u & D & E & L); [rewrite L1; cbn [length]; lia|].
  exists h', u. destruct (attached_nodes h' u D L) as [C Cov].
  assert (LC : forall x, children h' x = children h1 x) by (intros x; unfold children; rewrite (li_same _ _ _ _ L x); reflexivity).
  assert (LV : forall x, value h' x = value h1 x) by (intros x; unfold value; rewrite (li_same _ _ _ _ L x); reflexivity).
  assert (LP : forall x, parents h' x = parents h1 x) by (intros x; unfold parents; rewrite (li_same _ _ _ _ L x); reflexivity).
  assert (LT : forall x, n_expands (get h' x) = n_expands (get h1 x)) by (intros x; rewrite (li_same _ _ _ _ L x); reflexivity).
  assert (LI : forall x, n_id (get h' x) = n_id (get h1 x)) by (intros x; rewrite (li_same _ _ _ _ L x); reflexivity).
  assert (OV : forall x, N x -> value h1 x = value h0 x) by (intros x Nx; apply (old_field n_value); auto).
  assert (OP : forall x, N x -> parents h1 x = parents h0 x) by (intros x Nx; apply (old_field n_parents); auto).
  assert (OL : forall x, N x -> level h1 x = level h0 x) by (intros x Nx; apply (old_field n_level); auto).
  assert (OC : forall x, N x -> ~ In x (t_sources t) -> children h1 x = children h0 x) by (intros x Nx Ix; unfold children; rewrite old_get by assumption; reflexivity).
  assert (Bk : forall r a, N r -> below h0 r a -> below h' r a).
  { intros r a Nr B. assert (Na : forall b, below h0 r b -> N b) by (intros b; apply below_closed; [apply (wf_child _ _ _ W)|exact Nr]).
    induction B as [r|r b c B IH I]; [constructor|]. apply below_step with b; [apply IH; assumption|]. rewrite LC, OC; [exact I|apply Na, B|]. intros J. apply source_old in J. destruct J as (_ & _ & J). rewrite J in I. destruct I. }
  assert (IT : forall a, in_tree h' u a <-> NN a).
  { intros a. split.
    - intros (r & Ir & B). rewrite (li_roots _ _ _ _ L) in Ir. apply (below_closed h' NN r a); [intros x y Nx I; rewrite LC in I; apply (NN_child x y Nx I)|left; apply (wf_roots _ _ _ W), Ir|exact B].
    - unfold in_tree. rewrite (li_roots _ _ _ _ L). assert (A : forall n x, (x < n)%nat -> NN x -> exists r, In r (t_roots t) /\ below h' r x); [|intros Na; apply (A (S a)); [lia|exact Na]].
      induction n as [|n IH]; intros x B Nx; [lia|]. destruct Nx as [Nx|(g & q & H)].
      + destruct (wf_reach _ _ _ W x Nx) as (r & Ir & Br). exists r. split; [exact Ir|]. apply Bk; [apply (wf_roots _ _ _ W), Ir|exact Br].
      + destruct (forest_up x g q H) as (p & Np & Up & _ & I). destruct (NN_carries p Np Up) as (k & Cp). destruct (carries_child p k x Cp I) as (_ & _ & Lt).
        destruct (IH p ltac:(lia) Np) as (r & Ir & Br). exists r. split; [exact Ir|]. apply below_step with p; [exact Br|]. rewrite LC. exact I. }
  assert (RN : forall r, In r (t_roots t) -> N r) by apply (wf_roots _ _ _ W).
  assert (SrcN : forall x, In x (t_sources u) -> NN x) by (intros x I; apply (li_NN _ _ _ _ L); auto).
  assert (Fl : forall a, NN a -> children h1 a = [] \/ splits h1 a \/ merged h1 a).
  { intros a Na. destruct (in_dec Nat.eq_dec a (t_sources t)) as [I|I].
    - destruct (NN_carries a Na (or_introl I)) as (g & Cg). destruct (carries_flow a g Cg); auto.
    - destruct Na as [Na|(g & q & H)]; [|destruct (carries_flow a g (forest_carries a g q H)); auto].
      rewrite (OC a Na I). destruct (wf_flow _ _ _ W a Na) as [H|[(H1 & H2 & H3)|(m & H1 & H2 & H3 & H4 & H5)]]; [auto| |].
      + right; left. unfold splits. rewrite (OC a Na I). split; [exact H1|]. split.
        * rewrite Forall_forall in *. intros c Hc. rewrite OP; [auto|apply (wf_child _ _ _ W a c Na Hc)].
        * rewrite OV by exact Na. rewrite <- H3. f_equal. apply map_ext_in. intros c Hc. apply OV, (wf_child _ _ _ W a c Na Hc).
      + right; right. assert (Nm : N m) by (apply (wf_child _ _ _ W a m Na); rewrite H1; left; reflexivity).
        assert (Nq : forall q, In q (parents h0 m) -> N q) by (intros q; apply (wf_parent _ _ _ W m q Nm)).
        exists m. rewrite (OC a Na I), (OP m Nm), (OV m Nm). split; [exact H1|]. split; [exact H2|]. split; [exact H3|]. split.
        * rewrite Forall_forall in *. intros q Hq. specialize (H4 q Hq). rewrite OC; [exact H4|apply Nq, Hq|]. intros J. apply source_old in J. destruct J as (_ & _ & J). congruence.
        * rewrite H5. f_equal. apply map_ext_in. intros q Hq. symmetry. apply OV, Nq, Hq. }
  assert (Pv : Permutation (t_source_values u) (flat_map gleaves gs)).
  { destruct (li_items _ _ _ _ L) as (l & Hl1 & Hl2 & Hl3). rewrite (li_vals _ _ _ _ L), <- Hl1, <- Hl3. rewrite map_map.
    assert (X : forall e, In e l -> gleaves (snd e) = [value h1 (fst e)]).
    { intros [x g] I. cbn [fst snd]. pose proof (Hl2 x g I) as Cg. pose proof (carries_length x g Cg) as Ln. rewrite C in Ln by (apply (Permutation_in _ Hl1), (in_map fst _ _ I)).
      destruct Cg as (Cv & _). rewrite Cv. destruct g as [v ts [|c cs]]; [reflexivity|discriminate]. }
    clear -X. induction l as [|e l IH]; [reflexivity|]. cbn [map flat_map]. rewrite (X e (or_introl eq_refl)). cbn [app]. constructor. apply IH. intros e' I. apply X. right. exact I. }
  assert (Lm : forall l, map (value h') l = map (value h1) l) by (intros l; apply map_ext, LV).
  assert (TG : forall a, NN a -> tagged h1 a).
  { intros a Na. destruct (in_dec Nat.eq_dec a (t_sources t)) as [I|I].
    - destruct (P3_source a I) as (f & g & Q). pose proof (source_carries a f g Q) as Cg. destruct (source_old a I) as (_ & Na0 & E0). destruct (wf_tags _ _ _ W a Na0) as (own & T1 & _ & T3).
      rewrite E0 in T3. specialize (T3 ltac:(cbn; lia)). subst own. rewrite app_nil_r in T1.
      assert (Ec : children h1 a = starts (S f) (gchildren g)).
      { unfold children. rewrite (G1 a f g Q). unfold adopted. change (n_children (get h0 a)) with (children h0 a). rewrite E0. cbn [app]. destruct (3 <? length (starts (S f) (gchildren g)))%nat; reflexivity. }
      eapply (carries_tags a g _ Cg); [|reflexivity]. rewrite (OP a Na0), <- T1, Ec, (G1 a f g Q). unfold adopted. change (n_children (get h0 a)) with (children h0 a). rewrite E0. cbn [app].
      destruct (3 <? length (starts (S f) (gchildren g)))%nat; [reflexivity|]. cbn. rewrite app_nil_r. reflexivity.
    - destruct Na as [Na|(g & q & H)].
      + destruct (wf_tags _ _ _ W a Na) as (own & T1 & T2 & T3). exists own. rewrite (OP a Na), (OC a Na I), (OV a Na). rewrite (old_get a Na I). split; [exact T1|]. split; [|exact T3].
        intros L2. assert (EM : map (value h1) (children h0 a) = map (value h0) (children h0 a)) by (apply map_ext_in; intros c Hc; apply OV, (wf_child _ _ _ W a c Na Hc)). rewrite EM. apply T2, L2.
      + pose proof (forest_carries a g q H) as Cg. destruct (forest_get a g q H) as (p & Eg). eapply (carries_tags a g _ Cg); [|reflexivity].
        unfold parents, children. rewrite Eg. cbn [gn n_expands n_parents n_children set_parents]. cbn [length Nat.ltb Nat.leb app]. rewrite starts_length.
        pose proof (placed_folded _ _ _ _ _ _ H Fold) as Fg. inversion Fg; subst g; reflexivity. }
  assert (Ld : forall x, In x D -> NN x) by (intros x I; apply (li_NN _ _ _ _ L); auto).
  assert (Oldx : forall a, N a -> ~ In a (t_sources t) -> ~ In a D /\ ~ In a (t_sources u)).
  { intros a Na Ia. assert (X : In a D \/ In a (t_sources u) -> False); [|tauto]. intros J. apply (li_NN _ _ _ _ L) in J. destruct J as [_ [J|J]]; [contradiction|]. apply (wf_bound _ _ _ W) in Na. lia. }
  assert (Oldg : forall a, N a -> ~ In a (t_sources t) -> get h' a = get h0 a).
  { intros a Na Ia. destruct (Oldx a Na Ia). rewrite (li_lev_old _ _ _ _ L) by assumption. apply old_get; assumption. }
  split; [|split; [|split; [|split; [|split; [exact Pv|split; [|split; [|split; [|split; [|split; [|split]]]]]]]]]].
  - intros fuel F. unfold attach_leaves. assert (Ls : length (snd (plant h0 gs)) = length (t_sources t)) by (unfold plant; cbn [snd]; rewrite starts_length, lens; reflexivity).
    rewrite Ls, Count, Z.eqb_refl. cbn [negb]. apply (attach_loop_more _ _ _ _ _ E fuel F).
  - constructor.
    + intros a Ha. apply IT in Ha. rewrite (li_len _ _ _ _ L), L1. destruct Ha as [Na|(g & q & H)]; [|apply plant_range in H; lia]. apply (wf_bound _ _ _ W) in Na. rewrite plant_length. lia.
    + rewrite (li_roots _ _ _ _ L), Lm. apply map_ext_in. intros r Ir. apply OV, RN, Ir.
    + rewrite (li_roots _ _ _ _ L). apply (wf_roots_nd _ _ _ W).
    + intros a Ha. apply IT in Ha. rewrite (li_roots _ _ _ _ L), LP. destruct Ha as [Na|(g & q & H)].
      * rewrite (OP a Na). apply (wf_top _ _ _ W a Na).
      * destruct (forest_up a g q H) as (p & _ & _ & Ep & _). rewrite Ep. split; [discriminate|]. intros I. apply RN, (wf_bound _ _ _ W) in I. apply plant_range in H. lia.
    + intros a b Ha Hb. apply IT. apply IT in Ha. rewrite LP in Hb. apply (NN_parent a b Ha Hb).
    + intros a b Ha Hb. apply IT in Ha. apply IT in Hb. rewrite LC, LP. apply NN_links; assumption.
    + intros a Ha. apply IT in Ha. rewrite LC, LP. split.
      * destruct (in_dec Nat.eq_dec a (t_sources t)) as [I|I].
        -- destruct (NN_carries a Ha (or_introl I)) as (g & _ & _ & b & Eb & _). rewrite Eb. apply starts_nd.
        -- destruct Ha as [Na|(g & q & H)]; [rewrite (OC a Na I); apply (wf_nd _ _ _ W a Na)|]. destruct (forest_carries a g q H) as (_ & _ & b & Eb & _). rewrite Eb. apply starts_nd.
      * destruct Ha as [Na|(g & q & H)]; [rewrite (OP a Na); apply (wf_nd _ _ _ W a Na)|]. destruct (forest_up a g q H) as (p & _ & _ & Ep & _). rewrite Ep. repeat constructor. intros [].
    + intros a Ha. apply IT in Ha. rewrite LC. destruct (Fl a Ha) as [H|[(H1 & H2 & H3)|(m & H1 & H2 & H3 & H4 & H5)]]; [auto| |].
      * right; left. unfold splits. rewrite LC, Lm, LV. split; [exact H1|]. split; [|exact H3]. eapply Forall_impl; [|exact H2]. intros c. rewrite LP. auto.
      * right; right. exists m. rewrite LC, LP, LV, Lm. split; [exact H1|]. split; [exact H2|]. split; [exact H3|]. split; [|exact H5]. eapply Forall_impl; [|exact H4]. intros c. cbn beta. rewrite LC. auto.
    + intros a Ha. apply IT in Ha. rewrite LV. destruct Ha as [Na|(g & q & H)]; [rewrite (OV a Na); apply (wf_pos _ _ _ W a Na)|].
      destruct (forest_carries a g q H) as (Cv & Cf & _). rewrite Cv. apply gvalue_pos; [exact Cf|]. intros v I. apply Pos. apply (placed_leaves _ _ _ _ _ _ v H I).
    + intros a b Ha Hb. apply IT in Ha. apply IT in Hb. rewrite !LI.
      assert (IdO : forall x, N x -> n_id (get h1 x) = n_id (get h0 x)) by (intros x Nx; apply (old_field n_id); auto).
      assert (IdN : forall x g q, forest x g [q] -> n_id (get h1 x) = x) by (intros x g q H; destruct (forest_get x g q H) as (p & Eg); rewrite Eg; reflexivity).
      destruct Ha as [Na|(g & q & H)], Hb as [Nb|(g' & q' & H')].
      * rewrite !IdO by assumption. apply (wf_ids _ _ _ W a b Na Nb).
      * rewrite IdO by assumption. rewrite (IdN b g' q' H'). intros X. apply (wf_id_bound _ _ _ W) in Na. apply plant_range in H'. lia.
      * rewrite (IdN a g q H), IdO by assumption. intros X. apply (wf_id_bound _ _ _ W) in Nb. apply plant_range in H. lia.
      * rewrite (IdN a g q H), (IdN b g' q' H'). auto.
    + intros a. rewrite LC, IT. split; [intros I; split; [apply SrcN, I|apply C, I]|]. intros [Na Ea]. destruct (Cov a Na) as [I|[I|[I1 I2]]]; [|exact I|].
      * exfalso. apply (proj2 (li_D _ _ _ _ L a I)), Ea.
      * exfalso. rewrite (OC a I1 I2) in Ea. apply I2. apply (wf_open _ _ _ W). auto.
    + apply (li_nd _ _ _ _ L).
    + rewrite Lm. apply (li_vals _ _ _ _ L).
    + rewrite (li_vals _ _ _ _ L). apply (li_sorted _ _ _ _ L).
    + apply (li_count _ _ _ _ L).
    + rewrite (zsum_perm _ _ Pv). assert (X : zsum (flat_map gleaves gs) = zsum (map gvalue gs)).
      { clear -Fold. revert Fold. induction gs as [|g l IH]; intros Fl; [reflexivity|]. inversion Fl as [|? ? F Fl']; subst. cbn [flat_map map]. rewrite zsum_app, (IH Fl'), <- (folded_sum g F). reflexivity. }
      rewrite X, <- Vals, <- (wf_values _ _ _ W). exact Total.
  - constructor.
    + intros a b Ha Hb. apply IT in Ha. rewrite LC in Hb. destruct (Cov a Ha) as [I|[I|[I1 I2]]].
      * destruct (li_lev_edge _ _ _ _ L a b I Hb) as (l & m & E1 & E2 & R). exists l, m. auto.
      * rewrite (C a I) in Hb. destruct Hb.
      * rewrite (OC a I1 I2) in Hb. destruct (wf_edges _ _ _ W a b I1 Hb) as (la & lb & E1 & E2 & R). pose proof (wf_child _ _ _ W a b I1 Hb) as Nb.
        unfold level. rewrite (Oldg a I1 I2). destruct (in_dec Nat.eq_dec b (t_sources t)) as [J|J].
        -- destruct (Inner a I1 I2) as (l & E3 & R3). destruct (li_orig _ _ _ _ L b J) as [K|K].
           ++ destruct (li_lev_D _ _ _ _ L b K) as (m & E4 & R4). exists l, m. split; [exact E3|]. split; [exact E4|lia].
           ++ exists l, (t_current_level u). split; [exact E3|]. split; [apply (li_lev_open _ _ _ _ L b K)|]. pose proof (li_cur _ _ _ _ L). lia.
        -- exists la, lb. rewrite (Oldg b Nb J). auto.
    + intros a I. apply (li_lev_open _ _ _ _ L a I).
    + intros a Ha I. apply IT in Ha. assert (Cu : 0 <= t_current_level t).
      { destruct (t_roots t) as [|r rs] eqn:ER; [|destruct (wf_level _ _ _ W r) as (l & _ & R); [apply RN; left; reflexivity|lia]].
        exfalso. assert (X : forall x, N x -> False). { intros x Nx. destruct (wf_reach _ _ _ W x Nx) as (r & Ir & _). rewrite ER in Ir. destruct Ir. }
        apply IT in Ha. destruct Ha as (r & Ir & _). rewrite (li_roots _ _ _ _ L), ER in Ir. destruct Ir. }
      destruct (Cov a Ha) as [J|[J|[J1 J2]]]; [|contradiction|].
      * destruct (li_lev_D _ _ _ _ L a J) as (l & E1 & R). exists l. split; [exact E1|lia].
      * unfold level. rewrite (Oldg a J1 J2). destruct (Inner a J1 J2) as (l & E1 & R). destruct (wf_level _ _ _ W a J1) as (l' & E2 & R2). exists l. split; [exact E1|]. pose proof (li_cur _ _ _ _ L). assert (l = l') by congruence. lia.
  - intros a Ha. apply IT in Ha. destruct (TG a Ha) as (own & T1 & T2 & T3). exists own. rewrite LT, LP, LC, LV, Lm. auto.
  - apply (li_roots _ _ _ _ L).
  - apply (li_size _ _ _ _ L).
  - intros a Ha. apply (wf_in_tree h0 t N a W) in Ha. split; [apply IT; left; exact Ha|]. rewrite LV, LP, LC. split; [apply OV, Ha|]. split; [apply OP, Ha|].
    destruct (in_dec Nat.eq_dec a (t_sources t)) as [I|I]; [destruct (source_old a I) as (_ & _ & E0); rewrite E0; intros x []|]. rewrite (OC a Ha I). apply incl_refl.
  - intros a Ha I. apply (wf_in_tree h0 t N a W) in Ha. apply Oldg; assumption.
  - assert (PosN : forall x, NN x -> 0 < value h1 x).
    { intros x [Nx|(g & q & H)]; [rewrite (OV x Nx); apply (wf_pos _ _ _ W x Nx)|]. destruct (forest_carries x g q H) as (Cv & Cf & _). rewrite Cv. apply gvalue_pos; [exact Cf|]. intros v I. apply Pos. apply (placed_leaves _ _ _ _ _ _ v H I). }
    assert (A : forall n x, (x < n)%nat -> NN x -> exists b, N b /\ value h1 x <= value h0 b).
    { induction n as [|n IH]; intros x B Nx; [lia|]. destruct Nx as [Nx|(g & q & H)]; [exists x; split; [exact Nx|rewrite (OV x Nx); lia]|].
      destruct (forest_up x g q H) as (p & Np & Up & _ & I). destruct (NN_carries p Np Up) as (k & Cp). destruct (carries_child p k x Cp I) as (_ & _ & Lt).
      destruct (IH p ltac:(lia) Np) as (b & Nb & Lb). exists b. split; [exact Nb|]. destruct (carries_flow p k Cp) as [E0|(_ & _ & Sm)]; [rewrite E0 in I; destruct I|]. rewrite <- Sm in Lb.
      assert (Le : forall l, (forall y, In y l -> 0 < value h1 y) -> 0 <= zsum (map (value h1) l) /\ forall y, In y l -> value h1 y <= zsum (map (value h1) l)).
      { induction l as [|z l IHl]; intros Q; [split; [reflexivity|intros y []]|]. cbn [map]. rewrite zsum_cons. destruct (IHl (fun y J => Q y (or_intror J))) as [Z0 Z1]. pose proof (Q z (or_introl eq_refl)). split; [lia|]. intros y [<-|J]; [lia|specialize (Z1 y J); lia]. }
      destruct (Le (children h1 p)) as [_ Le2]; [intros y J; apply PosN, (NN_child p y Np J)|]. specialize (Le2 x I). lia. }
    intros a Ha. apply IT in Ha. rewrite LV. destruct (A (S a) a ltac:(lia) Ha) as (b & Nb & Lb). exists b. split; [apply (wf_in_tree h0 t N b W), Nb|exact Lb].
  - intros a c Ha Hc. apply IT in Ha. rewrite LT in Hc.
    destruct (in_dec Nat.eq_dec a (t_sources t)) as [I|I].
    + exfalso. destruct (P3_source a I) as (f & g & Q). destruct (source_old a I) as (_ & Na0 & E0). destruct (wf_tags _ _ _ W a Na0) as (own & T1 & _ & T3).
      rewrite E0 in T3. specialize (T3 ltac:(cbn; lia)). subst own. rewrite app_nil_r in T1.
      rewrite (G1 a f g Q) in Hc. unfold adopted in Hc. change (n_children (get h0 a)) with (children h0 a) in Hc. rewrite E0 in Hc. cbn [app] in Hc.
      assert (Nm : ~ In (TExtract c) (n_expands (get h0 a))) by (rewrite T1; intros J; destruct (3 <? length (parents h0 a))%nat; [destruct J as [J|[]]; discriminate|destruct J]).
      destruct (3 <? length (starts (S f) (gchildren g)))%nat; [|exact (Nm Hc)].
      cbn [n_expands set_expands add_tag set_children] in Hc. apply in_app_or in Hc. destruct Hc as [Hc|[Hc|[]]]; [exact (Nm Hc)|discriminate].
    + destruct Ha as [Na|(g & q & H)]; [split; [apply (wf_in_tree h0 t N a W), Na|apply Oldg; assumption]|].
      exfalso. destruct (forest_get a g q H) as (p & Eg). rewrite Eg in Hc. cbn [gn n_expands set_parents] in Hc.
      pose proof (placed_folded _ _ _ _ _ _ H Fold) as Fg. inversion Fg; subst g; cbn [gtags] in Hc; [destruct Hc|]. destruct (3 <? _)%nat; [destruct Hc as [Hc|[]]; discriminate|destruct Hc].
  - intros ns0 (ND & IN). destruct (completed_price ns0 ND) as (A1 & A2 & A3); [intros a; rewrite IN; apply (wf_in_tree h0 t N a W)|]. exists (ns0 ++ blocks n0 gs). split; [split; [exact A1|intros a; rewrite IT; apply A2]|].
    rewrite <- A3. f_equal. apply map_ext. intros a. unfold node_price. rewrite LC, LV, LP, LT. reflexivity.
Qed.
End Attach.
