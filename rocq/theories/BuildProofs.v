(** A whole splitter tree, level by level. *)
From Verif Require Import Base BaseLemmas Cost CostSpec CostProofs Utils Fractions Load Tree TreeSpec HeapLemmas Expand ExpandSpec BranchProofs LevelProofs.
From Coq Require Import QArith Qcanon.
Open Scope Z_scope.

(** links to several nodes, one after the other *)
Fixpoint reroute_fams (r off : Z) (cur : list nat) (fams : list (nat * Z)) (h : heap Qc) : res (heap Qc) :=
  match fams with
  | [] => Ok h
  | (t, k) :: fams => do h <- reroute r off cur t k h; reroute_fams r (off + k) cur fams h
  end.
Definition loops_of (fams : list (nat * Z)) : list nat := flat_map (fun tk => repeat (fst tk) (Z.to_nat (snd tk))) fams.
Definition total (fams : list (nat * Z)) : Z := zsum (map snd fams).
Lemma loops_length fams : (forall t k, In (t, k) fams -> 0 <= k) -> Z.of_nat (length (loops_of fams)) = total fams.
Proof.
  unfold loops_of, total. induction fams as [|[t k] fams IH]; intros H; [reflexivity|]. cbn [flat_map map fst snd]. rewrite app_length, repeat_length, zsum_cons.
  specialize (H t k (or_introl eq_refl)) as Hk. rewrite Nat2Z.inj_add, IH; [lia|]. intros t' k' I. apply (H t' k'). right. exact I.
Qed.
Lemma loops_in fams t : In t (loops_of fams) -> exists k, In (t, k) fams.
Proof.
  unfold loops_of. intros I. apply in_flat_map in I. destruct I as [[t' k] [I J]]. apply repeat_spec in J. cbn [fst] in J. subst t'. exists k. exact I.
Qed.

Lemma reroute_fams_spec r cur S : forall fams (h : heap Qc) off, (forall p, In p cur -> (p < length h)%nat) ->
  (forall t k, In (t, k) fams -> 0 <= k /\ (t < length h)%nat /\ ~ In t S) -> fits r cur off (length (loops_of fams)) ->
  exists h' extra, reroute_fams r off cur fams h = Ok h' /\ length h' = length h /\
    effect h h' (gain r cur (place off (loops_of fams))) (fun x ps => ps ++ extra x) /\
    (forall x, length (extra x) = cnt x (loops_of fams) /\ incl (extra x) cur) /\
    (forall D, linked_but D S h -> linked_but D S h').
Proof.
  induction fams as [|[t k] fams IH]; intros h off Hcur Hf F.
  - exists h, (fun _ => []). split; [reflexivity|]. split; [reflexivity|]. split; [|split; [intros x; split; [reflexivity|intros y []]|tauto]].
    eapply effect_ext; [apply effect_refl|reflexivity|]. intros x _. cbn. rewrite app_nil_r. reflexivity.
  - destruct (Hf t k (or_introl eq_refl)) as (Hk & Ht & HtS). cbn [reroute_fams]. unfold loops_of in *. cbn [flat_map fst snd] in *.
    rewrite app_length, repeat_length in F. set (ls := flat_map _ fams) in *. assert (F1 : fits r cur (off + 0) (Z.to_nat k)) by (unfold fits in *; lia).
    destruct (reroute_spec r cur t S h Hcur Ht (Z.to_nat k) off 0 F1) as (h1 & E1 & L1 & EF1 & LK1).
    unfold reroute. replace (0 + Z.of_nat (Z.to_nat k)) with k in E1 by lia. rewrite E1. cbn [bind].
    destruct (IH h1 (off + k)) as (h' & extra & E & L & EF & X & LK).
    { intros p Hp. rewrite L1. apply Hcur, Hp. } { intros t' k' I. rewrite L1. apply (Hf t' k'). right. exact I. } { unfold fits in *. lia. }
    exists h', (fun x => (if (t =? x)%nat then map (slot_parent r cur) (zrange off (off + k)) else []) ++ extra x). split; [exact E|]. split; [lia|]. split; [|split].
    + eapply effect_ext; [eapply effect_trans; [exact EF1|exact EF]| |]; cbn beta.
      * intros x _. rewrite place_app, gain_app, repeat_length. rewrite Z.add_0_r, Z2Nat.id by lia. reflexivity.
      * intros x _. replace (off + 0) with off by lia. replace (off + Z.of_nat (Z.to_nat k)) with (off + k) by lia.
        destruct (t =? x)%nat; [rewrite app_assoc|]; reflexivity.
    + intros x. destruct (X x) as [X1 X2]. rewrite app_length, cnt_app, X1. split.
      * f_equal. destruct (Nat.eqb_spec t x) as [->|Nx].
        -- rewrite map_length. unfold zrange. rewrite map_length, seq_length. replace (off + k - off) with k by lia.
           rewrite count_occ_repeat_eq by reflexivity. reflexivity.
        -- rewrite count_occ_repeat_neq by (intros ->; apply Nx; reflexivity). reflexivity.
      * apply incl_app; [|exact X2]. destruct (t =? x)%nat; [|intros y []]. intros y I. apply in_map_iff in I. destruct I as (s & <- & I).
        unfold zrange in I. apply in_map_iff in I. destruct I as (i & <- & I). apply in_seq in I. apply (fits_in r cur _ 0). unfold fits in *. lia.
    + intros D LB. apply LK, LK1; assumption.
Qed.

(** one level, for both expand_divide and expand_extract *)
Definition tree_level (n K : nat) (fams : nat -> list (nat * Z)) (N : nat -> Z) (flow : nat -> Qc) (lvl lta : Z) (bottom result : list nat)
    (st : heap Qc * list nat) (k : nat) : res (heap Qc * list nat) :=
  let (h, cur) := st in
  do (h, new) <- (if (k =? K)%nat then do h <- relink (radix n k) (total (fams k)) cur bottom h; Ok (h, result)
                  else grow (radix n k) (total (fams k)) cur (flow k) (lvl + 1 + Z.of_nat k) lta (N k) h);
  do h <- reroute_fams (radix n k) 0 cur (fams k) h;
  Ok (h, new).

(** the attributes expansion never touches on old nodes *)
Definition same_rest (n n' : node Qc) : Prop :=
  n_value n' = n_value n /\ n_id n' = n_id n /\ n_level n' = n_level n /\ n_past n' = n_past n /\
  n_expands n' = n_expands n /\ n_levels_to_add n' = n_levels_to_add n.
Lemma same_rest_relinked ps cs n : same_rest n (relinked ps cs n).
Proof. repeat split. Qed.
Lemma same_rest_trans a b c : same_rest a b -> same_rest b c -> same_rest a c.
Proof. intros (A1 & A2 & A3 & A4 & A5 & A6) (B1 & B2 & B3 & B4 & B5 & B6). repeat split; congruence. Qed.
Lemma same_rest_refl a : same_rest a a.
Proof. repeat split. Qed.

Record level_done (h h' : heap Qc) (r : Z) (cur loops new : list nat) : Prop := {
  ld_fanout : forall x, In x cur -> Z.of_nat (length (kids h' x)) = r;
  ld_links : Permutation (flat_map (fun x => kids h' x) cur) (loops ++ new);
  ld_other : forall x, (x < length h)%nat -> ~ In x cur -> kids h' x = kids h x;
  ld_rest : forall x, (x < length h)%nat -> same_rest (get h x) (get h' x);
  ld_parents : forall x, (x < length h)%nat -> ~ In x new -> exists extra, pars h' x = pars h x ++ extra /\ length extra = cnt x loops /\ incl extra cur;
  ld_new : forall y, In y new -> exists p, In p cur /\ pars h' y = [p]
}.

Lemma Permutation_flat_map_in {A B} (f g : A -> list B) l : (forall x, In x l -> Permutation (f x) (g x)) -> Permutation (flat_map f l) (flat_map g l).
Proof.
  induction l as [|x l IH]; intros H; [constructor|]. cbn [flat_map]. apply Permutation_app; [apply H; left; reflexivity|]. apply IH. intros y Hy. apply H. right. exact Hy.
Qed.
Lemma placed_parts loops new : Permutation (place (Z.of_nat (length loops)) new ++ place 0 loops) (place 0 (loops ++ new)).
Proof. rewrite place_app. apply Permutation_app_comm. Qed.

Lemma level_effect h h' r cur loops new par : 0 < r -> NoDup cur -> (forall x, In x cur -> (x < length h)%nat /\ kids h x = []) ->
  Z.of_nat (length loops + length new) = r * Z.of_nat (length cur) ->
  effect h h' (fun x => gain r cur (place (Z.of_nat (length loops)) new) x ++ gain r cur (place 0 loops) x) par ->
  (forall x, In x cur -> Z.of_nat (length (kids h' x)) = r) /\ Permutation (flat_map (fun x => kids h' x) cur) (loops ++ new) /\
  (forall x, (x < length h)%nat -> ~ In x cur -> kids h' x = kids h x) /\ (forall x, (x < length h)%nat -> same_rest (get h x) (get h' x)).
Proof.
  intros R N C L [_ E].
  assert (G : forall x, Permutation (gain r cur (place (Z.of_nat (length loops)) new) x ++ gain r cur (place 0 loops) x) (gain r cur (place 0 (loops ++ new)) x)).
  { intros x. rewrite <- gain_app. apply gain_perm, placed_parts. }
  destruct (gain_all r R cur (loops ++ new) N) as [A B]; [rewrite app_length; exact L|].
  assert (K : forall x, In x cur -> Permutation (kids h' x) (gain r cur (place 0 (loops ++ new)) x)).
  { intros x Hx. destruct (C x Hx) as [Hl Hk]. rewrite E by exact Hl. rewrite relinked_kids, Hk. apply G. }
  split; [|split; [|split]].
  - intros x Hx. rewrite (Permutation_length (K x Hx)). apply A, Hx.
  - rewrite <- B. apply Permutation_flat_map_in. exact K.
  - intros x Hx Nx. rewrite E by exact Hx. rewrite relinked_kids. rewrite !gain_out; [apply app_nil_r|exact Nx|unfold fits; lia|exact Nx|unfold fits; lia].
  - intros x Hx. rewrite E by exact Hx. apply same_rest_relinked.
Qed.

Lemma tree_level_grow n K fams N flow lvl lta bottom result S (h : heap Qc) cur k :
  k <> K -> negative (flow k) = false -> NoDup cur -> (forall x, In x cur -> (x < length h)%nat /\ kids h x = []) ->
  (forall x, In x S -> (x < length h)%nat) -> (forall t c, In (t, c) (fams k) -> 0 <= c /\ (t < length h)%nat /\ ~ In t S) ->
  0 <= N k -> total (fams k) + N k = radix n k * Z.of_nat (length cur) ->
  exists h', let new := seq (length h) (Z.to_nat (N k)) in
    tree_level n K fams N flow lvl lta bottom result (h, cur) k = Ok (h', new) /\ length h' = (length h + Z.to_nat (N k))%nat /\
    level_done h h' (radix n k) cur (loops_of (fams k)) new /\
    (forall y, In y new -> exists p, get h' y = MkNode (flow k) y (Some (lvl + 1 + Z.of_nat k)) (fl_append frac_eqb (flow k) fl_new) [p] [] [] lta) /\
    (forall D, linked_but D S h -> linked_but D S h').
Proof.
  intros HK Nf Ncur C HS Hf HN HL. pose proof (radix_pos n k) as R. cbn zeta. set (new := seq _ _).
  assert (LL : Z.of_nat (length (loops_of (fams k))) = total (fams k)) by (apply loops_length; intros t c I; apply (Hf t c I)).
  assert (LN : Z.of_nat (length new) = N k) by (unfold new; rewrite seq_length; lia).
  unfold tree_level. destruct (Nat.eqb_spec k K); [contradiction|].
  destruct (grow_spec (radix n k) (total (fams k)) cur (flow k) (lvl + 1 + Z.of_nat k) lta S Nf (Z.to_nat (N k)) h [] 0) as (h1 & E1 & L1 & EF1 & NW & LK1).
  { intros p Hp. apply C, Hp. } { exact HS. } { unfold fits. lia. }
  unfold grow. replace (0 + Z.of_nat (Z.to_nat (N k))) with (N k) in E1 by lia. rewrite E1. cbn [bind app].
  destruct (reroute_fams_spec (radix n k) cur S (fams k) h1 0) as (h' & extra & E & L & EF & X & LK).
  { intros p Hp. destruct (C p Hp). lia. } { intros t c I. destruct (Hf t c I) as (A & B & D). split; [exact A|]. split; [lia|exact D]. } { unfold fits. lia. }
  rewrite E. cbn [bind]. exists h'. split; [reflexivity|]. split; [lia|].
  pose proof (effect_trans _ _ _ _ _ _ _ EF1 EF) as ET. cbn beta in ET. rewrite Z.add_0_r, <- LL in ET.
  destruct (level_effect h h' (radix n k) cur (loops_of (fams k)) new _ ltac:(lia) Ncur C ltac:(lia) ET) as (D1 & D2 & D3 & D4).
  assert (NWy : forall y, In y new -> exists p, In p cur /\ get h' y = MkNode (flow k) y (Some (lvl + 1 + Z.of_nat k)) (fl_append frac_eqb (flow k) fl_new) [p] [] [] lta).
  { intros y Hy. unfold new in Hy. apply in_seq in Hy. destruct (NW y ltac:(lia)) as (p & Ip & G). exists p. split; [exact Ip|].
    destruct EF as [_ EF]. rewrite EF by lia. rewrite G. cbn [n_parents n_children].
    assert (EX : extra y = []).
    { destruct (X y) as [X1 _]. rewrite (proj1 (count_occ_not_In _ _ _)) in X1; [destruct (extra y); [reflexivity|discriminate]|].
      intros I. apply loops_in in I. destruct I as (c & I). apply Hf in I. lia. }
    rewrite EX, gain_out; [reflexivity| |unfold fits; lia]. intros I. apply C in I. lia. }
  split; [constructor|split].
  - exact D1.
  - exact D2.
  - exact D3.
  - exact D4.
  - intros x Hx _. exists (extra x). destruct ET as [_ ET]. rewrite ET by exact Hx. rewrite relinked_pars. split; [reflexivity|apply X].
  - intros y Hy. destruct (NWy y Hy) as (p & Ip & G). exists p. rewrite G. auto.
  - intros y Hy. destruct (NWy y Hy) as (p & _ & G). exists p. exact G.
  - intros D LB. apply LK, LK1, LB.
Qed.

Lemma tree_level_relink n K fams N flow lvl lta bottom result (h : heap Qc) cur :
  NoDup cur -> (forall x, In x cur -> (x < length h)%nat /\ kids h x = []) -> NoDup bottom ->
  (forall x, In x bottom -> (x < length h)%nat) -> (forall t c, In (t, c) (fams K) -> 0 <= c /\ (t < length h)%nat /\ ~ In t bottom) ->
  total (fams K) + Z.of_nat (length bottom) = radix n K * Z.of_nat (length cur) ->
  exists h', tree_level n K fams N flow lvl lta bottom result (h, cur) K = Ok (h', result) /\ length h' = length h /\
    level_done h h' (radix n K) cur (loops_of (fams K)) bottom /\
    (forall D, linked_but D bottom h -> linked_but D [] h').
Proof.
  intros Ncur C Nb Hb Hf HL. pose proof (radix_pos n K) as R.
  assert (LL : Z.of_nat (length (loops_of (fams K))) = total (fams K)) by (apply loops_length; intros t c I; apply (Hf t c I)).
  unfold tree_level. rewrite Nat.eqb_refl.
  destruct (relink_spec (radix n K) (total (fams K)) cur [] bottom h 0) as (h1 & par & E1 & L1 & EF1 & PI & PO & LK1).
  { intros p Hp. apply C, Hp. } { exact Hb. } { exact Nb. } { unfold fits. lia. }
  unfold relink. rewrite Z.add_0_l in E1. rewrite E1. cbn [bind].
  destruct (reroute_fams_spec (radix n K) cur [] (fams K) h1 0) as (h' & extra & E & L & EF & X & LK).
  { intros p Hp. destruct (C p Hp). lia. } { intros t c I. destruct (Hf t c I) as (A & B & D). split; [exact A|]. split; [lia|intros []]. } { unfold fits. lia. }
  rewrite E. cbn [bind]. exists h'. split; [reflexivity|]. split; [lia|].
  pose proof (effect_trans _ _ _ _ _ _ _ EF1 EF) as ET. cbn beta in ET. rewrite Z.add_0_r, <- LL in ET.
  destruct (level_effect h h' (radix n K) cur (loops_of (fams K)) bottom _ ltac:(lia) Ncur C ltac:(lia) ET) as (D1 & D2 & D3 & D4).
  split; [constructor|].
  - exact D1.
  - exact D2.
  - exact D3.
  - exact D4.
  - intros x Hx Nx. exists (extra x). destruct ET as [_ ET]. rewrite ET by exact Hx. rewrite relinked_pars, PO by exact Nx. split; [reflexivity|apply X].
  - intros y Hy. destruct (PI y (pars h y) Hy) as (p & Ip & Ep). exists p. split; [exact Ip|]. destruct ET as [_ ET]. rewrite ET by (apply Hb, Hy).
    rewrite relinked_pars, Ep. destruct (X y) as [X1 _]. rewrite (proj1 (count_occ_not_In _ _ _)) in X1; [destruct (extra y); [reflexivity|discriminate]|].
    intros I. apply loops_in in I. destruct I as (c & I). apply Hf in I. tauto.
  - intros D LB. apply LK, LK1; [intros c _ []|]. rewrite app_nil_r. exact LB.
Qed.

(** ** All levels *)
Section Build.
Variables (n K : nat) (fams : nat -> list (nat * Z)) (N : nat -> Z) (flow : nat -> Qc) (lvl lta : Z) (bottom result : list nat) (h0 : heap Qc) (a : nat).
Hypothesis Ha : (a < length h0)%nat.
Hypothesis Ka : kids h0 a = [].
Hypothesis HK : (0 < K)%nat.
Hypothesis HN0 : N 0 = 1.
Hypothesis HN : forall k, (k <= K)%nat -> 0 <= N k.
Hypothesis HNk : forall k, (0 < k <= K)%nat -> total (fams k) + N k = radix n k * N (k - 1).
Hypothesis Hflow : forall k, negative (flow k) = false.
Hypothesis Hfams : forall k t c, (0 < k <= K)%nat -> In (t, c) (fams k) -> 0 <= c /\ (t < length h0)%nat /\ ~ In t bottom.
Hypothesis Hbot : forall x, In x bottom -> (x < length h0)%nat.
Hypothesis Nbot : NoDup bottom.
Hypothesis Lbot : Z.of_nat (length bottom) = N K.
Hypothesis Abot : ~ In a bottom.

Fixpoint start (k : nat) : nat := match k with O => length h0 | S k' => match k' with O => length h0 | S _ => start k' + Z.to_nat (N k') end end.
Definition lv (k : nat) : list nat := match k with O => [a] | S _ => if (k =? K)%nat then bottom else seq (start k) (Z.to_nat (N k)) end.

Record built (k : nat) (h : heap Qc) : Prop := {
  b_length : length h = if (k =? K)%nat then start K else start (S k);
  b_level : forall i, (i < k)%nat -> (forall x, In x (lv i) -> Z.of_nat (length (kids h x)) = radix n (S i)) /\
              Permutation (flat_map (fun x => kids h x) (lv i)) (loops_of (fams (S i)) ++ lv (S i)) /\
              (forall y, In y (lv (S i)) -> exists p, In p (lv i) /\ pars h y = [p]);
  b_open : (k < K)%nat -> forall x, In x (lv k) -> kids h x = [];
  b_fresh : forall i y, (0 < i < K)%nat -> (i <= k)%nat -> In y (lv i) ->
     n_value (get h y) = flow i /\ n_id (get h y) = y /\ n_level (get h y) = Some (lvl + 1 + Z.of_nat i) /\ n_expands (get h y) = [] /\ n_levels_to_add (get h y) = lta;
  b_rest : forall x, (x < length h0)%nat -> same_rest (get h0 x) (get h x) /\ (x <> a -> kids h x = kids h0 x);
  b_parents : forall x, (x < length h0)%nat -> (k < K)%nat \/ ~ In x bottom ->
     exists extra, pars h x = pars h0 x ++ extra /\ length extra = cnt x (flat_map (fun i => loops_of (fams i)) (seq 1 k)) /\
       Forall2 (fun p i => In p (lv (i - 1))) extra (flat_map (fun i => repeat i (cnt x (loops_of (fams i)))) (seq 1 k));
  b_linked : forall D, linked_but D bottom h0 -> linked_but D (if (k =? K)%nat then [] else bottom) h
}.

Lemma start_ge k : (length h0 <= start k)%nat.
Proof. clear - h0 N. induction k as [|[|k] IH]; [cbn; lia|cbn; lia|]. change (start (S (S k))) with (start (S k) + Z.to_nat (N (S k)))%nat. lia. Qed.
Lemma start_SS k : (0 < k)%nat -> start (S k) = (start k + Z.to_nat (N k))%nat.
Proof. clear - h0 N. intros H. destruct k; [lia|]. reflexivity. Qed.
Lemma start_mono i j : (0 < i <= j)%nat -> (start i <= start j)%nat.
Proof. clear - h0 N. intros [H1 H2]. induction H2 as [|j H2 IH]; [lia|]. rewrite start_SS by lia. lia. Qed.
Lemma lv_mid k : (0 < k < K)%nat -> lv k = seq (start k) (Z.to_nat (N k)).
Proof. clear - HK h0 N a bottom. intros H. unfold lv. destruct k as [|k]; [lia|]. destruct (Nat.eqb_spec (S k) K); [lia|reflexivity]. Qed.
Lemma lv_K : lv K = bottom.
Proof. clear - HK h0 N a bottom. unfold lv. destruct K as [|k]; [lia|]. rewrite Nat.eqb_refl. reflexivity. Qed.
Lemma lv_length k : (k <= K)%nat -> Z.of_nat (length (lv k)) = N k.
Proof. clear - HK HN0 HN Lbot.
  intros H. destruct (Nat.eq_dec k K) as [->|]; [rewrite lv_K; exact Lbot|]. destruct k as [|k]; [cbn; lia|].
  rewrite lv_mid, seq_length by lia. specialize (HN (S k) H). lia.
Qed.
Lemma lv_nodup k : NoDup (lv k).
Proof. clear - Nbot.
  unfold lv. destruct k as [|k]; [repeat constructor; intros []|]. destruct (S k =? K)%nat; [exact Nbot|apply seq_NoDup].
Qed.
Lemma lv_old k x : (k < K)%nat -> In x (lv k) -> (x < length h0)%nat -> x = a.
Proof. clear - h0 N a bottom HK.
  intros Hk I L. destruct k as [|k]; [destruct I as [<-|[]]; reflexivity|]. rewrite lv_mid in I by lia. apply in_seq in I. pose proof (start_ge (S k)). lia.
Qed.
Lemma lv_disjoint i j x : (i < j <= K)%nat -> In x (lv i) -> In x (lv j) -> False.
Proof. clear - HK Hbot Abot Ha.
  intros H I J. destruct (Nat.eq_dec j K) as [->|NK].
  - rewrite lv_K in J. pose proof (Hbot x J) as B. apply (lv_old i x) in I; [|lia|exact B]. subst x. contradiction.
  - rewrite lv_mid in J by lia. apply in_seq in J. destruct i as [|i].
    + destruct I as [<-|[]]. pose proof (start_ge j). lia.
    + rewrite lv_mid in I by lia. apply in_seq in I. pose proof (start_mono (S (S i)) j ltac:(lia)). rewrite start_SS in H0 by lia. lia.
Qed.
Lemma lv_range k (h : heap Qc) x : (k < K)%nat -> length h = start (S k) -> In x (lv k) -> (x < length h)%nat.
Proof. clear - HK Ha.
  intros Hk L I. destruct k as [|k]; [destruct I as [<-|[]]; rewrite L; pose proof (start_ge 1); lia|].
  rewrite lv_mid in I by lia. apply in_seq in I. rewrite start_SS in L by lia. lia.
Qed.
Lemma lv_range_all i k (h : heap Qc) x : (i <= k < K)%nat -> length h = start (S k) -> In x (lv i) -> (x < length h)%nat.
Proof. clear - HK Ha.
  intros Hk L I. destruct i as [|i]; [destruct I as [<-|[]]; rewrite L; pose proof (start_ge (S k)); lia|].
  rewrite lv_mid in I by lia. apply in_seq in I. pose proof (start_mono (S (S i)) (S k) ltac:(lia)). rewrite start_SS in H by lia. lia.
Qed.

Lemma built_0 : built 0 h0.
Proof.
  constructor.
  - destruct (Nat.eqb_spec 0 K); [lia|reflexivity].
  - intros i Hi. lia.
  - intros _ x [<-|[]]. exact Ka.
  - intros i y H1 H2. lia.
  - intros x Hx. split; [apply same_rest_refl|reflexivity].
  - intros x Hx _. exists []. rewrite app_nil_r. split; [reflexivity|split; [reflexivity|constructor]].
  - destruct (Nat.eqb_spec 0 K); [lia|tauto].
Qed.

Lemma built_step k h h' new : (k < K)%nat -> built k h -> level_done h h' (radix n (S k)) (lv k) (loops_of (fams (S k))) (lv (S k)) ->
  length h' = (if (S k =? K)%nat then start K else start (S (S k))) ->
  ((S k < K)%nat -> forall y, In y (lv (S k)) -> exists p, get h' y = MkNode (flow (S k)) y (Some (lvl + 1 + Z.of_nat (S k))) (fl_append frac_eqb (flow (S k)) fl_new) [p] [] [] lta) ->
  (forall D, linked_but D bottom h -> linked_but D (if (S k =? K)%nat then [] else bottom) h') -> new = lv (S k) ->
  built (S k) h'.
Proof.
  intros Hk B LD LH' NW LK _. pose proof (b_length _ _ B) as LH. rewrite (proj2 (Nat.eqb_neq k K)) in LH by lia.
  assert (SG : (length h0 <= length h)%nat) by (rewrite LH; apply start_ge).
  assert (Fams : forall t, In t (loops_of (fams (S k))) -> (t < length h0)%nat /\ ~ In t bottom).
  { intros t I. apply loops_in in I. destruct I as (c & I). apply Hfams in I; [tauto|lia]. }
  constructor.
  - exact LH'.
  - intros i Hi. destruct (Nat.eq_dec i k) as [->|Ni].
    + split; [apply (ld_fanout _ _ _ _ _ _ LD)|]. split; [apply (ld_links _ _ _ _ _ _ LD)|]. apply (ld_new _ _ _ _ _ _ LD).
    + destruct (b_level _ _ B i ltac:(lia)) as (B1 & B2 & B3).
      assert (KX : forall x, In x (lv i) -> kids h' x = kids h x).
      { intros x Hx. apply (ld_other _ _ _ _ _ _ LD); [apply (lv_range_all i k h x); [lia|exact LH|exact Hx]|]. intros J. apply (lv_disjoint i k x); [lia|exact Hx|exact J]. }
      split; [|split].
      * intros x Hx. rewrite KX by exact Hx. apply B1, Hx.
      * etransitivity; [|exact B2]. apply Permutation_flat_map_in. intros x Hx. rewrite KX by exact Hx. apply Permutation_refl.
      * intros y Hy. destruct (B3 y Hy) as (p & Ip & Ep). exists p. split; [exact Ip|].
        assert (Iy : (S i <= k < K)%nat) by lia.
        destruct (ld_parents _ _ _ _ _ _ LD y) as (extra & E & L & _); [apply (lv_range_all (S i) k h y); [lia|exact LH|exact Hy]| |].
        { intros J. apply (lv_disjoint (S i) (S k) y); [lia|exact Hy|exact J]. }
        rewrite E, Ep. rewrite (proj1 (count_occ_not_In _ _ _)) in L; [destruct extra; [reflexivity|discriminate]|].
        intros J. apply Fams in J. rewrite lv_mid in Hy by lia. apply in_seq in Hy. pose proof (start_ge (S i)). lia.
  - intros HK2 x Hx. destruct (NW HK2 x Hx) as (p & ->). reflexivity.
  - intros i y Hi Hi2 Hy. destruct (Nat.eq_dec i (S k)) as [->|Ni].
    + destruct (NW ltac:(lia) y Hy) as (p & ->). repeat split.
    + pose proof (lv_range_all i k h y ltac:(lia) LH Hy) as Ry. destruct (b_fresh _ _ B i y Hi ltac:(lia) Hy) as (F1 & F2 & F3 & F4 & F5).
      destruct (ld_rest _ _ _ _ _ _ LD y Ry) as (R1 & R2 & R3 & R4 & R5 & R6). repeat split; congruence.
  - intros x Hx. destruct (b_rest _ _ B x Hx) as (R1 & R2). split; [eapply same_rest_trans; [exact R1|apply (ld_rest _ _ _ _ _ _ LD); lia]|].
    intros Nx. rewrite (ld_other _ _ _ _ _ _ LD); [apply R2, Nx|lia|]. intros I. apply Nx. apply (lv_old k); assumption.
  - intros x Hx C. destruct (b_parents _ _ B x Hx (or_introl Hk)) as (e1 & E1 & L1 & F1).
    destruct (ld_parents _ _ _ _ _ _ LD x) as (e2 & E2 & L2 & I2); [lia| |].
    { intros I. destruct C as [C|C]; [rewrite lv_mid in I by lia; apply in_seq in I; pose proof (start_ge (S k)); lia|].
      destruct (Nat.eq_dec (S k) K) as [E|NE]; [rewrite E, lv_K in I; contradiction|].
      rewrite lv_mid in I by lia; apply in_seq in I; pose proof (start_ge (S k)); lia. }
    exists (e1 ++ e2). rewrite E2, E1, app_assoc. split; [reflexivity|]. rewrite app_length, L1, L2.
    rewrite seq_S, !flat_map_app, cnt_app. cbn [flat_map Nat.add]. rewrite !app_nil_r. split; [reflexivity|].
    apply Forall2_app; [exact F1|]. rewrite <- L2. clear - I2. induction e2 as [|p e2 IH]; [constructor|]. cbn [length repeat]. constructor.
    + replace (S k - 1)%nat with k by lia. apply I2. left. reflexivity.
    + apply IH. intros y Iy. apply I2. right. exact Iy.
  - intros D LB. apply LK. pose proof (b_linked _ _ B D LB) as LB'. rewrite (proj2 (Nat.eqb_neq k K)) in LB' by lia. exact LB'.
Qed.

Lemma build_upto : forall k, (k < K)%nat -> exists h, fold_res (tree_level n K fams N flow lvl lta bottom result) (seq 1 k) (h0, [a]) = Ok (h, lv k) /\ built k h.
Proof.
  induction k as [|k IH]; intros Hk.
  - exists h0. split; [reflexivity|apply built_0].
  - destruct IH as (h & E & B); [lia|]. pose proof (b_length _ _ B) as LH. rewrite (proj2 (Nat.eqb_neq k K)) in LH by lia.
    rewrite seq_S. cbn [Nat.add].
    assert (FA : forall l1 l2 st, fold_res (tree_level n K fams N flow lvl lta bottom result) (l1 ++ l2) st = do st <- fold_res (tree_level n K fams N flow lvl lta bottom result) l1 st; fold_res (tree_level n K fams N flow lvl lta bottom result) l2 st).
    { clear. induction l1 as [|x l1 IH]; intros l2 st; [reflexivity|]. cbn [app fold_res]. destruct (tree_level _ _ _ _ _ _ _ _ _ st x); cbn [bind]; [apply IH|reflexivity]. }
    rewrite FA, E. cbn [bind fold_res].
    destruct (tree_level_grow n K fams N flow lvl lta bottom result bottom h (lv k) (S k)) as (h' & E' & L' & LD & NW & LK).
    + lia.
    + apply Hflow.
    + apply lv_nodup.
    + intros x Hx. split; [apply (lv_range k h x); [lia|exact LH|exact Hx]|]. apply (b_open _ _ B); [lia|exact Hx].
    + intros x Hx. apply Hbot in Hx. pose proof (start_ge (S k)). lia.
    + intros t c I. apply Hfams in I; [|lia]. pose proof (start_ge (S k)). destruct I as (I1 & I2 & I3). split; [exact I1|]. split; [lia|exact I3].
    + apply HN. lia.
    + rewrite HNk by lia. replace (S k - 1)%nat with k by lia. rewrite lv_length by lia. reflexivity.
    + rewrite E'. cbn [bind]. rewrite LH in LD, NW, E', L'. rewrite <- lv_mid in LD, NW, E' by lia. exists h'. rewrite LH, <- lv_mid by lia. split; [reflexivity|].
      eapply built_step; [|exact B|exact LD| | | |reflexivity].
      * lia.
      * rewrite (proj2 (Nat.eqb_neq (S k) K)) by lia. rewrite L', (start_SS (S k)) by lia. reflexivity.
      * intros _. exact NW.
      * rewrite (proj2 (Nat.eqb_neq (S k) K)) by lia. exact LK.
Qed.

Lemma fold_res_app {A B} (f : A -> B -> res A) l1 l2 st : fold_res f (l1 ++ l2) st = do st <- fold_res f l1 st; fold_res f l2 st.
Proof. revert st. induction l1 as [|x l1 IH]; intros st; [reflexivity|]. cbn [app fold_res]. destruct (f st x); cbn [bind]; [apply IH|reflexivity]. Qed.

Lemma build : exists h, fold_res (tree_level n K fams N flow lvl lta bottom result) (seq 1 K) (h0, [a]) = Ok (h, result) /\ built K h.
Proof.
  destruct (build_upto (K - 1)) as (h & E & B); [lia|]. pose proof (b_length _ _ B) as LH. rewrite (proj2 (Nat.eqb_neq (K - 1) K)) in LH by lia.
  replace (seq 1 K) with (seq 1 (K - 1) ++ [K]) by (replace K with ((K - 1) + 1)%nat at 3 by lia; rewrite (seq_app (K - 1) 1 1); cbn [seq]; repeat f_equal; lia).
  rewrite fold_res_app, E. cbn [bind fold_res].
  destruct (tree_level_relink n K fams N flow lvl lta bottom result h (lv (K - 1))) as (h' & E' & L' & LD & LK).
  - apply lv_nodup.
  - intros x Hx. split; [apply (lv_range (K - 1) h x); [lia|exact LH|exact Hx]|]. apply (b_open _ _ B); [lia|exact Hx].
  - exact Nbot.
  - intros x Hx. apply Hbot in Hx. pose proof (start_ge (S (K - 1))). lia.
  - intros t c I. apply Hfams in I; [|lia]. pose proof (start_ge (S (K - 1))). destruct I as (I1 & I2 & I3). split; [exact I1|]. split; [lia|exact I3].
  - rewrite Lbot, HNk by lia. rewrite lv_length by lia. reflexivity.
  - rewrite E'. cbn [bind]. exists h'. split; [reflexivity|]. replace K with (S (K - 1)) by lia.
    apply (built_step (K - 1) h h' (lv (S (K - 1)))); [lia|exact B| | | | |reflexivity]; replace (S (K - 1)) with K by lia.
    + rewrite lv_K. exact LD.
    + rewrite Nat.eqb_refl. rewrite L', LH. f_equal. lia.
    + intros; lia.
    + rewrite Nat.eqb_refl. exact LK.
Qed.
End Build.
