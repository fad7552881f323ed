(** Expanding an operation keeps the flow through the network. *)
From Verif Require Import Base BaseLemmas Cost CostSpec CostProofs Utils Fractions FractionsProofs Load Tree TreeSpec HeapLemmas Expand ExpandSpec BranchProofs LevelProofs BuildProofs
  ExpandProofs ExtractProofs FrameProofs MergeProofs SplitProofs LocalProofs MergeSafe TraverseSafe FlowSpec FlowProofs FlowMerge FlowTree.
From Coq Require Import QArith Qcanon.
Open Scope Z_scope.

Section Ops.
Variables (h0 : heap Qc) (P : nat -> Prop) (roots : list nat) (pend : nat -> nat) (total : nat).
Hypothesis New : forall x, (length h0 <= x)%nat -> P x.
Hypothesis Kids0 : forall x c, old h0 P x -> In c (kids h0 x) -> old h0 P c.
Hypothesis Roots0 : forall r, In r roots -> old h0 P r.
Hypothesis Value0 : forall x, old h0 P x -> (Q2Qc 0 < val h0 x)%Qc.
Hypothesis Below0 : forall x c, old h0 P x -> In c (kids h0 x) -> ~ In c roots.
Notation flow := (fg h0 P roots pend total).
Notation val := (val h0).

Definition apart_in (x y : nat) : Prop := P x /\ P y /\ x <> y.
Lemma fg_linked Q h T B : flow Q (length h) (ki h) (pa h) T B -> linked_but apart_in [] h.
Proof.
  intros F x y (Px & Py & N). destruct (in_dec Nat.eq_dec y []) as [[]|_].
  destruct (Nat.lt_ge_cases x (length h)) as [Bx|Bx]; destruct (Nat.lt_ge_cases y (length h)) as [By|By].
  - apply (fg_links _ _ _ _ _ _ _ _ _ _ _ F x y); [split|split|]; assumption.
  - rewrite (get_beyond h y By). cbn. apply cnt_out. intros I. apply (fg_kids _ _ _ _ _ _ _ _ _ _ _ F x y) in I; [destruct I; lia|split; assumption].
  - rewrite (get_beyond h x Bx). cbn. symmetry. apply cnt_out. intros I. apply (fg_pars _ _ _ _ _ _ _ _ _ _ _ F y x) in I; [destruct I; lia|split; assumption].
  - rewrite (get_beyond h y By), (get_beyond h x Bx). reflexivity.
Qed.

(** what an operation needs of its node for the flow to be right *)
Definition op_fair (x : nat) (t : tag) : Prop :=
  match t with
  | TDivide d => forall c, In c (kids h0 x) -> val c = (val x / frac_of_Z d)%Qc
  | TSplit s => In s speeds /\ exists y z o, Permutation (kids h0 x) [y; z; o] /\ NoDup [y; z; o] /\ val y = (frac_of_Z s / frac_of_Z 3)%Qc /\ val z = (frac_of_Z s / frac_of_Z 3)%Qc /\
      val x = (val y + val z + val o)%Qc /\ val o <> (frac_of_Z s / frac_of_Z 3)%Qc
  | _ => True
  end.

Section Step.
Variables (Q : nat -> Prop) (h h' : heap Qc) (a : nat) (T : nat -> Qc) (B : nat -> nat -> Qc).
Hypothesis F : flow Q (length h) (ki h) (pa h) T B.
Hypothesis Wa : waiting h0 P Q a.
Hypothesis Ka : kids h a = kids h0 a.
Hypothesis NE : kids h0 a <> [].
Hypothesis Alone : forall c, In c (kids h0 a) -> pars h c = [a].
Hypothesis L : loc h a (kids h a) h'.

Lemma st_old_a : old h0 P a.
Proof. apply Wa. Qed.
Lemma st_old_kid c : In c (kids h0 a) -> old h0 P c /\ (c < length h)%nat /\ c <> a /\ cnt c (kids h0 a) = 1%nat.
Proof.
  intros I. pose proof (fg_len _ _ _ _ _ _ _ _ _ _ _ F) as LL. pose proof (Kids0 a c st_old_a I) as O. split; [exact O|]. split; [destruct O; lia|].
  assert (Ne : c <> a) by (intros ->; apply (fg_own _ _ _ _ _ _ _ _ _ _ _ F a st_old_a); unfold ki; rewrite Ka; exact I). split; [exact Ne|].
  pose proof (fg_links _ _ _ _ _ _ _ _ _ _ _ F a c (old_inside h0 P _ a LL st_old_a) (old_inside h0 P _ c LL O) ltac:(congruence)) as E. unfold ki, pa in E. rewrite Ka, (Alone c I) in E. rewrite E. cbn.
  destruct (Nat.eq_dec a a); [reflexivity|congruence].
Qed.

(** the machines an operation adds *)
Definition counted : Prop := list_sum (map (at_node roots (ki h') (pa h')) (a :: kids h0 a ++ seq (length h) (length h' - length h))) =
  (list_sum (map (at_node roots (ki h) (pa h)) (a :: kids h0 a)) + pend a)%nat.
Lemma op_counted ns (k : nat -> nat) fresh : (2 <= length (kids h0 a))%nat -> (2 <= length (kids h' a))%nat -> ~ In a (kids h' a) -> pars h' a = pars h a ++ ns ->
  (forall c, In c (kids h0 a) -> length (pars h' c) = k c) ->
  list_sum (map (at_node roots (ki h') (pa h')) (seq (length h) (length h' - length h))) = fresh ->
  pend a = (fresh + (length ns + (length (pars h a) + source roots a) mod 2) / 2 + list_sum (map (fun c => k c / 2) (kids h0 a)))%nat -> counted.
Proof.
  intros L1 L2 Na Ea Ec Ef Ep. unfold counted. cbn [map]. rewrite map_app. change (list_sum (?u :: ?l)) with (u + list_sum l)%nat. rewrite list_sum_app, Ef, Ep.
  assert (Ek : list_sum (map (at_node roots (ki h') (pa h')) (kids h0 a)) = (list_sum (map (at_node roots (ki h) (pa h)) (kids h0 a)) + list_sum (map (fun c => k c / 2) (kids h0 a)))%nat).
  { assert (G : forall l, (forall c, In c l -> In c (kids h0 a)) -> list_sum (map (at_node roots (ki h') (pa h')) l) = (list_sum (map (at_node roots (ki h) (pa h)) l) + list_sum (map (fun c => k c / 2) l))%nat); [|apply G; auto].
    induction l as [|c l IH]; intros R; [reflexivity|]. cbn [map]. change (list_sum (?u :: ?v)) with (u + list_sum v)%nat. rewrite IH by (intros x I; apply R; right; exact I). specialize (R c (or_introl eq_refl)).
    destruct (st_old_kid c R) as (Oc & Bc & Nc & _). unfold at_node, fan_in, ki, pa. rewrite (lo_kids _ _ _ _ L c Bc Nc), (Ec c R), (Alone c R). rewrite (cnt_out c (kids h c)) by apply (fg_own _ _ _ _ _ _ _ _ _ _ _ F c Oc).
    unfold source. destruct (in_dec Nat.eq_dec c roots) as [X|_]; [destruct (Below0 a c st_old_a R X)|]. rewrite !Nat.add_0_r. change (length [a] / 2)%nat with O. lia. }
  rewrite Ek. unfold at_node at 1 3, fan_in, ki, pa. rewrite Ka, (proj2 (Nat.leb_le 2 _) L1), (proj2 (Nat.leb_le 2 _) L2), (cnt_out a _ Na), Ea, app_length.
  assert (Oa : ~ In a (kids h0 a)) by (intros I; apply (st_old_kid a I); reflexivity). rewrite (cnt_out a _ Oa), !Nat.add_0_r.
  set (p := length (pars h a)). set (q := length ns). set (r := source roots a).
  assert (X : ((p + q + r) / 2 = (p + r) / 2 + (q + (p + r) mod 2) / 2)%nat).
  { replace (p + q + r)%nat with (q + (p + r) mod 2 + (p + r) / 2 * 2)%nat by (pose proof (Nat.div_mod (p + r) 2 ltac:(lia)); lia). rewrite Nat.div_add by lia. lia. }
  rewrite X. lia.
Qed.

(** an operation replaced by new nodes: what is left to show *)
Lemma op_flow t b :
  (forall w v, apart_in w v -> cnt v (kids h' w) = cnt w (pars h' v)) ->
  ~ In a (kids h' a) ->
  (forall w, (length h <= w < length h')%nat -> t w = (qcsum (map (fun p => b p w) (pars h' w)) + frac_of_Z (Z.of_nat (cnt w (kids h' w))) * b w w)%Qc /\ ~ In w (pars h' w) /\ (length (pars h' w) + cnt w (kids h' w) <= 3)%nat) ->
  (exists ns, pars h' a = pars h a ++ ns /\ (forall p, In p ns -> (length h <= p < length h')%nat) /\ t a = (val a + qcsum (map (fun p => b p a) ns))%Qc) ->
  (forall c, In c (kids h0 a) -> (forall p, In p (pars h' c) -> inner h a h' p) /\ qcsum (map (fun p => b p c) (pars h' c)) = val c) ->
  (forall w, inner h a h' w -> hands_on (ki h') (st_through (length h) T a t) (st_belt (length h) B a b) w) ->
  (forall w, inner h a h' w -> (Q2Qc 0 < t w)%Qc /\ forall c, In c (kids h' w) -> (Q2Qc 0 < b w c)%Qc) ->
  (forall w, inner h a h' w -> reached (ki h') [a] w) ->
  (forall w, inner h a h' w -> (t w <= frac_of_Z 1200)%Qc \/ exists x, old h0 P x /\ (t w <= val x)%Qc) ->
  counted ->
  flow (fun x => Q x /\ x <> a) (length h') (ki h') (pa h') (st_through (length h) T a t) (st_belt (length h) B a b).
Proof.
  intros LK OW BN BA BC HO PS RE LI CT. pose proof (lo_len _ _ _ _ L) as Len. pose proof (fg_len _ _ _ _ _ _ _ _ _ _ _ F) as LL. pose proof st_old_a as Oa. assert (Ba : (a < length h)%nat) by (destruct Oa; lia).
  assert (IN : forall w, w = a \/ (length h <= w < length h')%nat -> inner h a h' w) by (intros w [->|X]; [left; reflexivity|right; exact X]).
  assert (PI : forall w, inner h a h' w -> P w) by (intros w [->|X]; [apply Oa|apply New; lia]).
  apply (fg_step h0 P roots pend total New Kids0 Roots0 Value0 Q (length h) (ki h) (pa h) T B a (length h') (ki h') (pa h') t b); try assumption.
  - intros w [_ Bw] N. apply (lo_kids _ _ _ _ L w Bw N).
  - intros w [_ Bw] N1 N2. apply (lo_pars _ _ _ _ L w Bw N1). rewrite Ka. exact N2.
  - intros w v M I. rewrite Ka in L. destruct (lo_kids_in _ _ _ _ L w v (IN w M) I) as [X|X]; [left; exact X|right; exact X].
  - intros w p Hw I. split; [|intros ->; apply (BN w Hw), I]. destruct (lo_pars_in _ _ _ _ L w p (or_introl (or_intror Hw)) I) as [X|[-> _]]; [exact X|lia].
  - intros w v M M' N. apply LK. split; [apply PI, IN, M|]. split; [|exact N]. destruct M' as [M'|M']; [apply PI, IN, M'|apply (st_old_kid v M')].
  - intros w Hw. apply (BN w Hw).
  - destruct BA as (ns & E & Hn & Et). exists ns. split; [unfold pa; rewrite E; reflexivity|]. split; assumption.
  - intros w I. destruct (st_old_kid w I) as (_ & _ & Ne & C). destruct (BC w I) as (B1 & B2). exists [], (pars h' w). rewrite C. split; [unfold pa; rewrite (Alone w I); reflexivity|]. split; [intros []|]. split; [reflexivity|].
    split; [exact B1|]. rewrite B2. change (Z.of_nat 1) with 1. rewrite foz_1. ring.
  - intros c I. destruct (BC c I) as (B1 & B2). destruct (st_old_kid c I) as (Oc & Bc & Ne & _). destruct (pars h' c) as [|p ps] eqn:E.
    + exfalso. cbn in B2. pose proof (Value0 c Oc) as X. rewrite <- B2 in X. apply (Qclt_not_eq _ _ X). reflexivity.
    + exists p. pose proof (B1 p (or_introl eq_refl)) as Hp. split; [exact Hp|]. unfold ki. apply cnt_in. rewrite LK; [rewrite E; cbn; destruct (Nat.eq_dec p p); [lia|congruence]|]. split; [apply PI, Hp|]. split; [apply Oc|].
      destruct Hp as [->|Hp]; [congruence|lia].
  - intros w Hw. apply (BN w Hw).
  - intros M H1 H2 w Hw. destruct (LI w (IN w Hw)) as [X|(x & Ox & X)]; eapply Qcle_trans; [exact X|exact H1|exact X|apply H2, Ox].
  - apply (NoDup_count_occ' Nat.eq_dec). intros c I. apply (st_old_kid c I).
Qed.

(** a splitter tree *)
Section Tree.
Variables (n m : nat) (fams : nat -> list (nat * Z)) (N : nat -> Z) (Fl : Qc) (lvl lta : Z) (bottom : list nat) (hs hb : heap Qc).
Hypothesis HK : (0 < n + m)%nat.
Hypothesis Ls : length hs = length h.
Hypothesis Hbot : incl bottom (kids h0 a).
Hypothesis Hfams : forall k t c, In (t, c) (fams k) -> t = a \/ In t (kids h0 a).
Hypothesis Bt : built n (n + m) fams N (fun k => (Fl / frac_of_Z (slots n k))%Qc) lvl lta bottom hs a (n + m) hb.
Hypothesis Lb : length h' = length hb.
Hypothesis Kb : forall x, kids h' x = kids hb x.
Hypothesis Pb : forall x, pars h' x = pars hb x.
Hypothesis Lk : linked_but apart_in bottom hs.
Hypothesis Pa : pars hs a = pars h a.
Hypothesis First : cnt a (loops_of (fams 1)) = O.
Hypothesis Back : Fl = (val a + flow_to a n m Fl (fun k => loops_of (fams k)))%Qc.
Hypothesis Limit : (Fl <= frac_of_Z 1200)%Qc.
Hypothesis Reach : forall c, In c (kids h0 a) -> In c bottom /\ val c = (Fl / frac_of_Z (slots n (n + m)))%Qc \/
  ~ In c bottom /\ pars hs c = [] /\ val c = flow_to c n m Fl (fun k => loops_of (fams k)).

Hypothesis Pos : (Q2Qc 0 < Fl)%Qc.
Hypothesis Count : counted.
Lemma tree_flow : exists T' B', flow (fun x => Q x /\ x <> a) (length h') (ki h') (pa h') T' B'.
Proof.
  set (t := tr_through Fl hb a). set (b := tr_belt Fl hb a).
  pose proof (fg_len _ _ _ _ _ _ _ _ _ _ _ F) as LL. pose proof st_old_a as Oa. assert (Ba : (a < length hs)%nat) by (destruct Oa; lia).
  assert (CB : forall x, In x (kids h0 a) -> (x < length hs)%nat) by (intros x I; rewrite Ls; apply (st_old_kid x I)).
  assert (Hb : forall x, In x bottom -> (x < length hs)%nat) by (intros x I; apply CB, Hbot, I).
  assert (Ab : ~ In a bottom) by (intros I; apply (st_old_kid a (Hbot a I)); reflexivity).
  assert (Hf : forall k t c, In (t, c) (fams k) -> (t < length hs)%nat) by (intros k w c I; destruct (Hfams k w c I) as [->|J]; [exact Ba|apply CB, J]).
  assert (IN : forall w, inner h a h' w -> w = a \/ (length hs <= w < length hb)%nat) by (intros w Hw; rewrite Ls, <- Lb; exact Hw).
  assert (NI : forall w, w = a \/ (length hs <= w < length hb)%nat -> inner h a h' w) by (intros w Hw; rewrite Ls, <- Lb in Hw; exact Hw).
  exists (st_through (length h) T a t), (st_belt (length h) B a b). apply op_flow.
  - intros w v A. rewrite Kb, Pb. apply (tr_linked _ _ _ _ _ _ _ _ _ _ _ Bt apart_in Lk w v A).
  - rewrite Kb. apply (tr_own _ _ _ _ _ _ _ _ _ _ _ HK Ba Hb Ab Hf Bt First).
  - intros w Hw. rewrite Kb, Pb. rewrite <- Ls, Lb in Hw. destruct (tr_balance _ _ _ _ _ _ _ _ _ _ _ HK Ba Hb Ab Hf Bt w Hw) as (p & Hp & Ne & E & Et).
    pose proof (tr_noself _ _ _ _ _ _ _ _ _ _ _ HK Ba Hb Ab Hf Bt w Hw) as NS. rewrite (cnt_out w _ NS), E. split; [|split; [intros [X|[]]; congruence|cbn; lia]].
    cbn [map qcsum fold_right]. change (Z.of_nat 0) with 0. rewrite foz_0. unfold t. rewrite Et. unfold b. ring.
  - destruct (tr_extra _ _ _ _ _ _ _ _ _ _ _ HK Ba Hb Ab Hf Bt a Ba Ab) as (ns & E & Hn & Es & _). exists ns. split; [rewrite Pb, E, Pa; reflexivity|]. split.
    + intros p I. destruct (Hn p I) as (i & Hi & J & X). destruct i as [|i]; [apply cnt_in in X; rewrite First in X; lia|]. rewrite <- Ls, Lb. apply (tr_new _ _ _ _ _ _ _ _ _ _ _ HK Ba Hb Hf Bt (S i)); [lia|exact J].
    + unfold b. rewrite Es. unfold t, tr_through. rewrite Nat.eqb_refl. exact Back.
  - intros c I. rewrite Pb. destruct (Reach c I) as [[Ic Vc]|(Ic & Ec & Vc)].
    + destruct (tr_bottom _ _ _ _ _ _ _ _ _ _ _ HK Ba Hb Ab Hf Bt c Ic) as (p & Hp & E & Eb). rewrite E. split; [intros q [<-|[]]; apply NI, Hp|]. cbn [map qcsum fold_right]. unfold b. rewrite Eb, <- Vc. ring.
    + destruct (tr_extra _ _ _ _ _ _ _ _ _ _ _ HK Ba Hb Ab Hf Bt c (CB c I) Ic) as (ns & E & Hn & Es & _). rewrite E, Ec. cbn [app]. split; [|unfold b; rewrite Es; symmetry; exact Vc].
      intros p J. destruct (Hn p J) as (i & Hi & J' & _). apply NI. apply (tr_inner _ _ _ _ _ _ _ _ _ _ _ HK Ba Hb Hf Bt i p Hi J').
  - intros w Hw. assert (M : st_mid (length h) a w = true) by (unfold st_mid; destruct Hw as [->|Hw]; [rewrite Nat.eqb_refl; reflexivity|rewrite (proj2 (Nat.leb_le (length h) w)) by lia; apply orb_true_r]).
    apply on_equally; unfold ki; rewrite Kb; [apply (tr_splits _ _ _ _ _ _ _ _ _ _ _ HK Ba Hb Hf Bt w (IN w Hw))|]. intros y I. unfold st_belt, st_through. rewrite M. reflexivity.
  - intros w Hw. destruct (tr_positive _ _ _ _ _ _ _ _ _ _ _ HK Ba Hb Hf Pos Bt w (IN w Hw)) as (X1 & _ & X2). split; [exact X1|intros c _; apply X2].
  - intros w Hw. destruct (tr_mid _ _ _ _ _ _ _ _ _ _ _ HK Ba Hb Hf Bt w (IN w Hw)) as (i & Hi & J).
    assert (R : reached (fun x => kids hb x) [a] w) by (apply (tr_reached _ _ _ _ _ _ _ _ _ _ _ HK Ba Hb Hf Bt i w Hi J)). clear - R Kb. induction R as [r I|x y _ IH I]; [apply reached_root, I|]. apply (reached_out _ _ x y IH). unfold ki. rewrite Kb. exact I.
  - intros w Hw. left. eapply Qcle_trans; [|exact Limit]. apply (tr_positive _ _ _ _ _ _ _ _ _ _ _ HK Ba Hb Hf Pos Bt w (IN w Hw)).
  - exact Count.
Qed.
End Tree.
End Step.

(** ** Names of belts.  [D y]: the belts that arrive at [y] once all nodes above it
    are expanded; [Lo y]: the levels of those that its own operation leads back;
    [grow y]: the machines at the nodes that are new with its operation *)
Variables (D : nat -> list (nat * nat)) (Lo : nat -> list nat) (grow : nat -> nat).
Hypothesis Pend : forall x, pend x = (grow x + (length (Lo x) + (length (D x) + source roots x) mod 2) / 2 + list_sum (map (fun c => length (D c) / 2) (kids h0 x)))%nat.
Definition op_named (x : nat) (t : tag) : Prop :=
  match t with
  | TDivide d => (forall n m l s, find_n_m_l d = Ok (n, m, l, s) -> Lo x = belt_levels n m l /\ 1 + Z.of_nat (grow x) = zsum (map (n_at n m l) (seq 0 (n + m)))) /\
      forall c, In c (kids h0 x) -> D c = [(x, O)]
  | TExtract c => forall v n m l s, val x = frac_of_Z v -> find_n_m_l (v / Z.gcd v (v - c)) = Ok (n, m, l, s) ->
      Lo x = belt_levels n m l /\ 1 + Z.of_nat (grow x) = zsum (map (n3_at n m l (c / Z.gcd v (v - c)) ((v - c) / Z.gcd v (v - c))) (seq 0 (n + m))) /\
      forall y w, In y (kids h0 x) -> val y = frac_of_Z w -> D y = map (pair x) (belt_levels n m (w / Z.gcd v (v - c)))
  | TSplit _ => Lo x = [] /\ grow x = 2%nat /\ forall c, In c (kids h0 x) -> D c = [(x, O)]
  | TMerge _ => True
  end.
Definition cap_of (h : heap Qc) (a : nat) : nat := if (length (pars h a) =? 0)%nat then 2%nat else 3%nat.
Record after (h h' : heap Qc) (a : nat) : Prop := {
  af_loops : exists loops f, pars h' a = pars h a ++ loops /\ (forall p, In p loops -> (length h <= p < length h')%nat) /\ map f loops = Lo a;
  af_tags : exists extra, n_expands (get h' a) = n_expands (get h a) ++ extra /\ Forall (eq (TMerge (Z.of_nat (cap_of h a)))) extra /\
    ((length (pars h' a) <= cap_of h a)%nat \/ extra <> [] \/ pars h' a = pars h a);
  af_kids : forall c, In c (kids h0 a) -> (exists f, map f (pars h' c) = D c) /\
    exists extra, n_expands (get h' c) = n_expands (get h c) ++ extra /\ Forall (eq (TMerge 3)) extra /\ ((length (pars h' c) <= 3)%nat \/ extra <> [])
}.

Lemma levels_named n m q f x : (forall k, (0 < k <= n + m)%nat -> Z.of_nat (cnt x (loops_of (f k))) = cut_at n m q k) ->
  flat_map (fun i => repeat i (cnt x (loops_of (f i)))) (seq 1 (n + m)) = belt_levels n m q.
Proof.
  clear. intros H. unfold belt_levels. 
  assert (G : forall l, (forall k, In k l -> (0 < k <= n + m)%nat) -> flat_map (fun i => repeat i (cnt x (loops_of (f i)))) l = flat_map (fun k => repeat k (Z.to_nat (cuts n m q k))) l).
  { induction l as [|k l IH]; intros R; [reflexivity|]. cbn [flat_map]. rewrite IH by (intros j J; apply R; right; exact J). f_equal. f_equal. pose proof (R k (or_introl eq_refl)) as Hk. rewrite cuts_cut by lia. rewrite <- H by exact Hk. lia. }
  apply G. intros k I. apply in_seq in I. lia.
Qed.
Lemma cap_Z h a : (if (length (pars h a) =? 0)%nat then 2 else 3) = Z.of_nat (cap_of h a).
Proof. unfold cap_of. destruct (_ =? _)%nat; reflexivity. Qed.
Lemma tag_merge_tags t h b : (b < length h)%nat -> exists extra, n_expands (get (tag_merge (Z.of_nat t) h b) b) = n_expands (get h b) ++ extra /\ Forall (eq (TMerge (Z.of_nat t))) extra /\
  ((length (pars h b) <= t)%nat \/ extra <> []).
Proof.
  clear. intros Hb. rewrite tag_merge_get by exact Hb. rewrite Nat.eqb_refl. cbn [andb]. destruct (Z.ltb_spec (Z.of_nat t) (Z.of_nat (length (pars h b)))) as [X|X].
  - exists [TMerge (Z.of_nat t)]. split; [reflexivity|]. split; [repeat constructor|]. right. discriminate.
  - exists []. rewrite app_nil_r. split; [reflexivity|]. split; [constructor|]. left. lia.
Qed.

Section Cases.
Variables (Q : nat -> Prop) (h : heap Qc) (seen : list nat) (a : nat) (T : nat -> Qc) (B : nat -> nat -> Qc).
Hypothesis F : flow Q (length h) (ki h) (pa h) T B.
Hypothesis V : inv h0 P Q h seen.
Hypothesis Wa : waiting h0 P Q a.
Hypothesis Even : Nat.even (length (pars h a)) = Nat.even (length (D a)).

Lemma cs_ka : kids h a = kids h0 a.
Proof. apply (iv_q1 _ _ _ _ _ V a Wa). Qed.
Lemma cs_alone c : In c (kids h0 a) -> pars h c = [a].
Proof. intros I. apply (iv_q2 _ _ _ _ _ V a c Wa I). Qed.
Lemma cs_level : exists l, n_level (get h a) = Some l.
Proof. pose proof (iv_len _ _ _ _ _ V). apply (iv_level _ _ _ _ _ V a). destruct Wa as ((Pa & Ba) & _). split; [exact Pa|lia]. Qed.
Lemma cs_value x : old h0 P x -> n_value (get h x) = val x.
Proof. apply (iv_keep _ _ _ _ _ V). Qed.
Lemma cs_kid c : In c (kids h0 a) -> old h0 P c /\ (c < length h)%nat /\ c <> a /\ cnt c (kids h0 a) = 1%nat.
Proof. intros I. apply (st_old_kid Q h a T B F Wa cs_ka cs_alone c I). Qed.
Lemma cs_node : old h0 P a /\ (a < length h)%nat.
Proof. pose proof (iv_len _ _ _ _ _ V). assert (O : old h0 P a) by apply Wa. split; [exact O|destruct O; lia]. Qed.
Lemma cs_distinct : NoDup (kids h0 a).
Proof. apply (NoDup_count_occ' Nat.eq_dec). intros c I. apply (cs_kid c I). Qed.

Lemma even_mod p q : Nat.even p = Nat.even q -> forall r, ((p + r) mod 2 = (q + r) mod 2)%nat.
Proof.
  clear. intros E r. assert (M : forall x, (x mod 2 = if Nat.even x then 0 else 1)%nat).
  { intros x. destruct (Nat.Even_or_Odd x) as [[y ->]|[y ->]]; rewrite (Nat.mul_comm 2).
    - rewrite Nat.mod_mul, (proj2 (Nat.even_spec (y * 2))) by (lia || (exists y; lia)). reflexivity.
    - rewrite Nat.add_comm, Nat.mod_add by lia. replace (Nat.even (1 + y * 2)) with false; [reflexivity|]. symmetry. rewrite <- Nat.negb_odd, (proj2 (Nat.odd_spec _)); [reflexivity|exists y; lia]. }
  rewrite !M, !Nat.even_add, E. reflexivity.
Qed.
Lemma cs_counted h' : loc h a (kids h a) h' -> after h h' a -> (2 <= length (kids h0 a))%nat -> (2 <= length (kids h' a))%nat -> ~ In a (kids h' a) ->
  list_sum (map (at_node roots (ki h') (pa h')) (seq (length h) (length h' - length h))) = grow a -> counted h h' a.
Proof.
  intros L A L1 L2 Na Ef. destruct (af_loops _ _ _ A) as (ns & f & E1 & _ & E2).
  apply (op_counted Q h h' a T B F Wa cs_ka cs_alone L ns (fun c => length (D c)) (grow a)); try assumption.
  - intros c I. destruct (af_kids _ _ _ A c I) as ((f' & E3) & _). rewrite <- E3, map_length. reflexivity.
  - rewrite Pend, <- E2, map_length. rewrite (even_mod _ _ Even). reflexivity.
Qed.

Lemma divide_flows d : op_ready h0 a (TDivide d) -> op_fair a (TDivide d) -> op_named a (TDivide d) ->
  exists h' u, expand_divide h a d = Ok (h', u) /\ loc h a (kids h a) h' /\ after h h' a /\ exists T' B', flow (fun x => Q x /\ x <> a) (length h') (ki h') (pa h') T' B'.
Proof.
  intros (Hd & Nd & Cn & Lim) Fair (Nm1 & Nm2). destruct cs_node as (Oa & Ba). destruct cs_level as (lvl & El). pose proof cs_ka as Ka. pose proof (cs_value a Oa) as Va.
  assert (NA : ~ In a (kids h0 a)) by (intros I; apply (cs_kid a I); reflexivity).
  assert (DV : divisible h a d lvl).
  { constructor; try assumption; try (rewrite Ka; assumption); [rewrite Va; apply Qclt_le_weak, Value0, Oa|]. rewrite Ka. apply cs_alone. }
  destruct (divide_safe_built h a d lvl DV) as (n & m & l & s & h' & hb & u & E & L & Hf & Eh & Bt); [rewrite Ka; intros c I; apply (cs_kid c I)|exact Hd|rewrite Va; exact Lim|].
  exists h', u. split; [exact E|]. split; [exact L|].
  destruct (find_n_m_l_positive d n m l s Hd Hf) as (Hl & HW & Hnm & _). specialize (Lim _ _ _ _ Hf). fold (val a) in Lim. rewrite Va, Ka in Bt. pose proof (loops_small d n m l s Hd Hf) as Sm.
  set (Fl := (val a + frac_of_Z l * val a / frac_of_Z d)%Qc) in *. set (hs := upd a (set_children []) h) in *.
  assert (Ls : length hs = length h) by (unfold hs; apply upd_length).
  assert (Bb : (a < length hb)%nat) by (pose proof (tr_grow _ _ _ _ _ _ _ _ _ _ _ Bt) as X; lia).
  assert (Lb : length h' = length hb) by (rewrite Eh; apply tag_merge_length).
  assert (Kb : forall x, kids h' x = kids hb x) by (intros x; rewrite Eh; apply tag_merge_fields, Bb).
  assert (Pb : forall x, pars h' x = pars hb x) by (intros x; rewrite Eh; apply tag_merge_fields, Bb).
  assert (Ps : forall x, pars hs x = pars h x) by (intros x; unfold hs; destruct (Nat.eq_dec a x) as [<-|N]; [rewrite get_upd_same by exact Ba|rewrite get_upd_other by exact N]; reflexivity).
  assert (Ts : forall x, n_expands (get hs x) = n_expands (get h x)) by (intros x; unfold hs; destruct (Nat.eq_dec a x) as [<-|N]; [rewrite get_upd_same by exact Ba|rewrite get_upd_other by exact N]; reflexivity).
  assert (Bs : (a < length hs)%nat) by lia.
  assert (Hb : forall x, In x (kids h0 a) -> (x < length hs)%nat) by (intros x I; rewrite Ls; apply (cs_kid x I)).
  assert (HF : forall k t c, In (t, c) (divide_fams n m l a a k) -> t = a) by (intros k t c [X|[]]; injection X as <- _; destruct (k <=? n)%nat; reflexivity).
  assert (HF' : forall k t c, In (t, c) (divide_fams n m l a a k) -> (t < length hs)%nat) by (intros k t c I; rewrite (HF k t c I); exact Bs).
  assert (LC : forall k, (0 < k <= n + m)%nat -> Z.of_nat (cnt a (loops_of (divide_fams n m l a a k))) = cut_at n m l k) by (intros k Hk; apply divide_loops_cnt; lia).
  assert (Pos : (Q2Qc 0 < Fl)%Qc) by (apply qc_pos_plus; [apply Value0, Oa|]; apply nonneg_over; [apply nonneg_mult; [apply foz_nonneg; lia|apply Qclt_le_weak, Value0, Oa]|lia]).
  assert (Flow : (Fl / frac_of_Z (2 ^ Z.of_nat n * 3 ^ Z.of_nat m))%Qc = (val a / frac_of_Z d)%Qc).
  { pose proof (divide_flow h a d n m l s Hd Hf) as X. rewrite Va in X. exact X. }
  assert (First : cnt a (loops_of (divide_fams n m l a a 1)) = O) by (pose proof (LC 1%nat ltac:(lia)) as X; rewrite cut_first in X by lia; lia).
  assert (RT : forall x, (x < length h)%nat -> n_expands (get hb x) = n_expands (get h x)).
  { intros x Bx. destruct (b_rest _ _ _ _ _ _ _ _ _ _ _ _ Bt x ltac:(lia)) as ((_ & _ & _ & _ & X & _) & _). rewrite X. apply Ts. }
  assert (Af : after h h' a); [|split; [exact Af|]].
  - constructor.
    + destruct (tr_extra _ _ _ _ _ _ _ _ _ _ _ Hnm Bs Hb NA HF' Bt a Bs NA) as (ns & En & Hn & _ & Enm). exists ns, (fun p => S (tr_level n m (n_at n m l) (kids h0 a) hs a p)). split; [rewrite Pb, En, Ps; reflexivity|].
      split; [|rewrite Enm, (proj1 (Nm1 _ _ _ _ Hf)); apply levels_named, LC]. intros p I. destruct (Hn p I) as (i & Hi & J & X). destruct i as [|i]; [apply cnt_in in X; lia|]. rewrite <- Ls, Lb. apply (tr_new _ _ _ _ _ _ _ _ _ _ _ Hnm Bs Hb HF' Bt (S i)); [lia|exact J].
    + rewrite cap_Z in Eh. destruct (tag_merge_tags (cap_of h a) hb a Bb) as (ex & E1 & E2 & E3). exists ex. rewrite Eh at 1. rewrite E1, (RT a Ba), Pb. split; [reflexivity|]. split; [exact E2|]. destruct E3 as [E3|E3]; [left|right; left]; exact E3.
    + intros c I. destruct (cs_kid c I) as (_ & Bc & Nc & _). destruct (tr_bottom _ _ _ _ _ _ _ _ _ _ _ Hnm Bs Hb NA HF' Bt c I) as (p & _ & Ep & _). rewrite Pb, Ep. split; [exists (fun _ => (a, O)); rewrite (Nm2 c I); reflexivity|].
      exists []. rewrite app_nil_r. split; [|split; [constructor|left; cbn; lia]]. rewrite Eh, tag_merge_get by exact Bb. rewrite (proj2 (Nat.eqb_neq a c)) by congruence. cbn [andb]. apply RT, Bc.
  - apply (tree_flow Q h h' a T B F Wa Ka ltac:(intros X; rewrite X in Cn; cbn in Cn; lia) cs_alone L n m (divide_fams n m l a a) (n_at n m l) Fl lvl (- Z.of_nat (n + m)) (kids h0 a) hs hb); try assumption.
    + apply incl_refl.
    + intros k t c I. left. apply (HF k t c I).
    + unfold hs. rewrite <- Ka. apply linked_clear; [exact Ba|apply (fg_linked Q h T B F)|rewrite Ka; exact cs_alone].
    + apply Ps.
    + rewrite (loops_flow n m l Fl (fun k => loops_of (divide_fams n m l a a k)) a) by (try exact LC; lia). rewrite Flow. unfold Fl, Qcdiv. ring.
    + intros c I. left. split; [exact I|]. rewrite slots_bottom, Flow. apply Fair, I.
    + apply cs_counted; try assumption.
      * lia.
      * rewrite Kb. pose proof (tr_fan _ _ _ _ _ _ _ _ _ _ _ Bt O a ltac:(lia) (or_introl eq_refl)) as X. unfold radix in X. destruct (1 <=? n)%nat; lia.
      * rewrite Kb. apply (tr_own _ _ _ _ _ _ _ _ _ _ _ Hnm Bs Hb NA HF' Bt First).
      * destruct (Nm1 _ _ _ _ Hf) as (_ & Gr). pose proof (tr_number _ _ _ _ _ _ _ _ _ _ _ Hnm Bs Hb HF' Bt ltac:(apply n_at_0; lia) ltac:(intros k Hk; apply n_at_nonneg; lia)) as X. rewrite <- Gr in X.
        rewrite (map_ext (at_node roots (ki h') (pa h')) (at_node roots (fun x => kids hb x) (fun x => pars hb x))) by (intros w; unfold at_node, fan_in, ki, pa; rewrite Kb, Pb; reflexivity).
        rewrite Lb, <- Ls, (tr_count _ _ _ _ _ _ _ _ _ _ _ Hnm Bs Hb NA HF' Bt); [clear - X; lia|]. intros r I. apply Roots0 in I. destruct I as [_ I]. pose proof (iv_len _ _ _ _ _ V) as Y. rewrite Ls. clear - I Y. lia.
Qed.

Lemma extract_flows c : op_ready h0 a (TExtract c) -> op_named a (TExtract c) ->
  exists h' u, expand_extract h a c = Ok (h', u) /\ loc h a (kids h a) h' /\ after h h' a /\ exists T' B', flow (fun x => Q x /\ x <> a) (length h') (ki h') (pa h') T' B'.
Proof.
  intros (v & ext & ovf & Ev & Hv & Hc & Ne & Kx & Vx & Vo & Lim) Nm. destruct cs_node as (Oa & Ba). destruct cs_level as (lvl & El). pose proof cs_ka as Ka. pose proof (cs_value a Oa) as Va.
  assert (Ox : In ext (kids h0 a) /\ In ovf (kids h0 a)) by (destruct Kx as [->|[-> _]]; cbn; auto). destruct Ox as [Ix Io].
  assert (KI : forall y, In y (kids h0 a) -> y = ext \/ y = ovf) by (intros y I; destruct Kx as [K|[K _]]; rewrite K in I; destruct I as [<-|[<-|[]]]; auto).
  destruct (cs_kid ext Ix) as (Oe & Be & Nea & _). destruct (cs_kid ovf Io) as (Oo & Bo & Noa & _).
  assert (EX : extractable h a v c lvl ext ovf).
  { constructor; try assumption.
    - rewrite Va. exact Ev.
    - rewrite Ka. exact Kx.
    - rewrite (cs_value ext Oe). exact Vx.
    - rewrite (cs_value ovf Oo). exact Vo.
    - auto.
    - split; apply cs_alone; assumption. }
  destruct (extract_safe_built h a v c lvl ext ovf EX Be Bo Hv Hc Lim) as (n & m & l & s & h' & hb & u & E & L & HH). cbn zeta in HH.
  pose proof (extract_parts v c Hv Hc) as HP. cbn zeta in HP.
  set (g := Z.gcd v (v - c)) in *. set (d := v / g) in *. set (e := c * d / v) in *. destruct HP as (Hd & He & Exd & Ece). destruct HH as (Hf & Eh & Bt & _).
  exists h', u. split; [exact E|]. split; [exact L|].
  destruct (find_n_m_l_positive d n m l s ltac:(lia) Hf) as (Hl & HW & Hnm & _). specialize (Lim _ _ _ _ Hf). pose proof (loops_small d n m l s ltac:(lia) Hf) as Sm.
  assert (DE : v - c = (d - e) * g) by (assert (X : forall p q r s t : Z, p = q * t -> r = s * t -> p - r = (q - s) * t) by (clear; intros; subst; ring); apply X; assumption).
  assert (Hg : 0 < g) by (destruct (Z.lt_trichotomy g 0) as [X|[X|X]]; [|rewrite X in Exd; lia|exact X]; pose proof (Z.gcd_nonneg v (v - c)) as Y; fold g in Y; lia).
  set (Fl := frac_of_Z (v + l * g)) in *. set (hs := cleared h a ext ovf) in *.
  assert (Gs : forall x, get hs x = if (x =? a)%nat then set_children [] (get h x) else if (x =? ext)%nat || (x =? ovf)%nat then set_parents [] (get h x) else get h x) by (intros x; apply cleared_get; assumption).
  assert (Ls : length hs = length h) by apply cleared_length.
  assert (Bs : (a < length hs)%nat) by lia.
  pose proof (tr_grow _ _ _ _ _ _ _ _ _ _ _ Bt) as Gr.
  assert (Bb : (a < length hb)%nat /\ (ext < length hb)%nat /\ (ovf < length hb)%nat) by (clear - Gr Ls Ba Be Bo; lia). destruct Bb as (Bba & Bbe & Bbo).
  assert (Lb : length h' = length hb) by (rewrite Eh; apply tags3_length).
  assert (Kb : forall x, kids h' x = kids hb x) by (intros x; rewrite Eh; apply tags3_fields; assumption).
  assert (Pb : forall x, pars h' x = pars hb x) by (intros x; rewrite Eh; apply tags3_fields; assumption).
  assert (Ps : pars hs a = pars h a) by (rewrite Gs, Nat.eqb_refl; reflexivity).
  assert (Pe : pars hs ext = []) by (rewrite Gs, (proj2 (Nat.eqb_neq ext a)), Nat.eqb_refl by assumption; reflexivity).
  assert (Po : pars hs ovf = []) by (rewrite Gs, (proj2 (Nat.eqb_neq ovf a)), Nat.eqb_refl, orb_true_r by assumption; reflexivity).
  assert (Ts : forall x, n_expands (get hs x) = n_expands (get h x)) by (intros x; rewrite Gs; destruct (x =? a)%nat; [reflexivity|]; destruct (_ || _)%bool; reflexivity).
  set (fams := extract_fams n m l e (d - e) a ext ovf) in *.
  assert (LC : forall k, (0 < k <= n + m)%nat -> Z.of_nat (cnt a (loops_of (fams k))) = cut_at n m l k /\ Z.of_nat (cnt ext (loops_of (fams k))) = cut_at n m e k /\ Z.of_nat (cnt ovf (loops_of (fams k))) = cut_at n m (d - e) k).
  { intros k Hk. destruct (extract_loops_cnt n m l e (d - e) a ext ovf k) as (X1 & X2 & X3 & _); try lia; try congruence. auto. }
  assert (HF : forall k t c, In (t, c) (fams k) -> t = a \/ In t (kids h0 a)) by (intros k t c0 [X|[X|[X|[]]]]; injection X as <- _; auto).
  assert (HF' : forall k t c, In (t, c) (fams k) -> (t < length hs)%nat) by (intros k t c0 I; rewrite Ls; destruct (HF k t c0 I) as [->|J]; [exact Ba|apply (cs_kid t J)]).
  assert (Hb : forall x : nat, In x [] -> (x < length hs)%nat) by (intros x []).
  assert (Pos : (Q2Qc 0 < Fl)%Qc) by (apply foz_pos; nia).
  assert (First : cnt a (loops_of (fams 1%nat)) = O) by (destruct (LC 1%nat ltac:(lia)) as (X & _); rewrite cut_first in X by lia; lia).
  set (W := 2 ^ Z.of_nat n * 3 ^ Z.of_nat m) in *.
  assert (Flow : (Fl / frac_of_Z W)%Qc = frac_of_Z g).
  { unfold Fl. replace (v + l * g) with (W * g) by nia. rewrite foz_mult. field. apply foz_neq0. lia. }
  assert (FA : flow_to a n m Fl (fun k => loops_of (fams k)) = frac_of_Z (l * g)) by (rewrite (loops_flow n m l) by (try (intros k Hk; apply (LC k Hk)); lia); fold W; rewrite Flow, foz_mult; reflexivity).
  assert (FE : flow_to ext n m Fl (fun k => loops_of (fams k)) = frac_of_Z c) by (rewrite (loops_flow n m e) by (try (intros k Hk; apply (LC k Hk)); lia); fold W; rewrite Flow, <- foz_mult; f_equal; lia).
  assert (FO : flow_to ovf n m Fl (fun k => loops_of (fams k)) = frac_of_Z (v - c)) by (rewrite (loops_flow n m (d - e)) by (try (intros k Hk; apply (LC k Hk)); lia); fold W; rewrite Flow, <- foz_mult; f_equal; lia).
  assert (RT : forall x, (x < length h)%nat -> n_expands (get hb x) = n_expands (get h x)).
  { intros x Bx. destruct (b_rest _ _ _ _ _ _ _ _ _ _ _ _ Bt x ltac:(lia)) as ((_ & _ & _ & _ & X & _) & _). rewrite X. apply Ts. }
  assert (Qe : c / g = e) by (rewrite Ece at 1; rewrite Z.div_mul by (clear - Hg; lia); reflexivity). assert (Qo : (v - c) / g = d - e) by (rewrite DE at 1; rewrite Z.div_mul by (clear - Hg; lia); reflexivity).
  destruct (Nm v n m l s Ev Hf) as (Nm1 & Nm3 & Nm2). fold g in Nm3. rewrite Qe, Qo in Nm3. clear Qe Qo.
  assert (Gt : forall x, get h' x = let mark k := if k <? Z.of_nat (length (pars hb x)) then add_tag (TMerge k) (get hb x) else get hb x in
    if (x =? a)%nat then mark (Z.of_nat (cap_of h a)) else if (x =? ext)%nat || (x =? ovf)%nat then mark 3 else get hb x) by (intros x; rewrite Eh, cap_Z; apply tags3_get; congruence).
  assert (Af : after h h' a); [|split; [exact Af|]].
  - constructor.
    + destruct (tr_extra _ _ _ _ _ _ _ _ _ _ _ Hnm Bs Hb ltac:(intros []) HF' Bt a Bs ltac:(intros [])) as (ns & En & Hn & _ & Enm). exists ns, (fun p => S (tr_level n m (n3_at n m l e (d - e)) [] hs a p)). split; [rewrite Pb, En, Ps; reflexivity|].
      split; [|rewrite Enm, Nm1; apply levels_named; intros k Hk; apply (LC k Hk)]. intros p I. destruct (Hn p I) as (i & Hi & J & X). destruct i as [|i]; [apply cnt_in in X; lia|]. rewrite <- Ls, Lb. apply (tr_new _ _ _ _ _ _ _ _ _ _ _ Hnm Bs Hb HF' Bt (S i)); [lia|exact J].
    + rewrite Pb, (Gt a), Nat.eqb_refl. cbn beta zeta. match goal with |- context [if ?b then _ else _] => destruct b eqn:X; [apply Z.ltb_lt in X|apply Z.ltb_ge in X] end.
      * exists [TMerge (Z.of_nat (cap_of h a))]. unfold add_tag, set_expands. cbn [n_expands]. rewrite (RT a Ba). split; [reflexivity|]. split; [repeat constructor|]. right. left. discriminate.
      * exists []. rewrite (RT a Ba), app_nil_r. split; [reflexivity|]. split; [constructor|]. left. lia.
    + assert (GK : forall y q, y = ext \/ y = ovf -> (forall k, (0 < k <= n + m)%nat -> Z.of_nat (cnt y (loops_of (fams k))) = cut_at n m q k) -> pars hs y = [] -> D y = map (pair a) (belt_levels n m q) ->
        (exists f, map f (pars h' y) = D y) /\ exists extra, n_expands (get h' y) = n_expands (get h y) ++ extra /\ Forall (eq (TMerge 3)) extra /\ ((length (pars h' y) <= 3)%nat \/ extra <> [])).
      { intros y q Hy Cn Py Dy. assert (Yy : (y < length h)%nat /\ y <> a) by (destruct Hy as [->| ->]; auto). destruct Yy as (By & Nya).
        destruct (tr_extra _ _ _ _ _ _ _ _ _ _ _ Hnm Bs Hb ltac:(intros []) HF' Bt y ltac:(lia) ltac:(intros [])) as (ns & En & _ & _ & Enm). rewrite Py in En. cbn [app] in En. split.
        - exists (fun p => (a, S (tr_level n m (n3_at n m l e (d - e)) [] hs a p))). rewrite Pb, En, Dy, <- (levels_named n m q fams y Cn), <- Enm, map_map. reflexivity.
        - rewrite Pb, (Gt y), (proj2 (Nat.eqb_neq y a)) by exact Nya. replace ((y =? ext)%nat || (y =? ovf)%nat) with true by (destruct Hy as [->| ->]; rewrite Nat.eqb_refl, ?orb_true_r; reflexivity). cbn beta zeta.
          match goal with |- context [if ?b then _ else _] => destruct b eqn:X; [apply Z.ltb_lt in X|apply Z.ltb_ge in X] end.
          + exists [TMerge 3]. unfold add_tag, set_expands. cbn [n_expands]. rewrite (RT y By). split; [reflexivity|]. split; [repeat constructor|]. right. discriminate.
          + exists []. rewrite (RT y By), app_nil_r. split; [reflexivity|]. split; [constructor|]. left. lia. }
      intros y I. destruct (KI y I) as [->| ->].
      * apply (GK ext e); [auto|intros k Hk; apply (LC k Hk)|exact Pe|]. rewrite (Nm2 ext c I Vx). f_equal. f_equal. rewrite Ece at 1. apply Z.div_mul. lia.
      * apply (GK ovf (d - e)); [auto|intros k Hk; apply (LC k Hk)|exact Po|]. rewrite (Nm2 ovf (v - c) I Vo). f_equal. f_equal. rewrite DE at 1. apply Z.div_mul. lia.
  - apply (tree_flow Q h h' a T B F Wa Ka ltac:(intros X; rewrite X in Ix; destruct Ix) cs_alone L n m fams (n3_at n m l e (d - e)) Fl lvl (- Z.of_nat (n + m)) [] hs hb); try assumption.
    + intros x [].
    + intros x y Axy. destruct (in_dec Nat.eq_dec y []) as [[]|_]. pose proof (fg_linked Q h T B F x y Axy) as X. destruct (in_dec Nat.eq_dec y []) as [[]|_]. rewrite !Gs.
      destruct (Nat.eqb_spec x a) as [->|Nx].
      * cbn [set_children n_children]. destruct (Nat.eqb_spec y a) as [->|Ny]; [destruct Axy as (_ & _ & Axy); congruence|]. destruct (Nat.eqb_spec y ext) as [->|Ny1]; [reflexivity|]. destruct (Nat.eqb_spec y ovf) as [->|Ny2]; [reflexivity|]. cbn [orb].
        rewrite <- X, Ka. symmetry. apply cnt_out. intros I. destruct (KI y I); congruence.
      * assert (KX : n_children (if (x =? ext)%nat || (x =? ovf)%nat then set_parents [] (get h x) else get h x) = kids h x) by (destruct (_ || _)%bool; reflexivity). rewrite KX, X.
        destruct (Nat.eqb_spec y a) as [->|Ny]; [reflexivity|]. destruct (Nat.eqb_spec y ext) as [->|Ny1].
        { cbn [orb set_parents n_parents]. rewrite (cs_alone ext Ix). cbn. destruct (Nat.eq_dec a x); [congruence|reflexivity]. }
        destruct (Nat.eqb_spec y ovf) as [->|Ny2]; [|reflexivity]. cbn [orb set_parents n_parents]. rewrite (cs_alone ovf Io). cbn. destruct (Nat.eq_dec a x); [congruence|reflexivity].
    + rewrite FA. unfold Fl, val. rewrite Ev, <- foz_plus. reflexivity.
    + apply (proj1 (foz_le (v + l * g) 1200)). exact Lim.
    + intros y I. right. split; [intros []|]. destruct (KI y I) as [->| ->]; [rewrite FE; auto|rewrite FO; auto].
    + apply cs_counted; try assumption.
      * destruct Kx as [->|[-> _]]; cbn; auto.
      * rewrite Kb. pose proof (tr_fan _ _ _ _ _ _ _ _ _ _ _ Bt O a ltac:(lia) (or_introl eq_refl)) as X. unfold radix in X. destruct (1 <=? n)%nat; lia.
      * rewrite Kb. apply (tr_own _ _ _ _ _ _ _ _ _ _ _ Hnm Bs Hb ltac:(intros []) HF' Bt First).
      * pose proof (tr_number _ _ _ _ _ _ _ _ _ _ _ Hnm Bs Hb HF' Bt ltac:(apply n3_0; fold W; lia) ltac:(intros k Hk; apply n3_nonneg; fold W; lia)) as X. rewrite <- Nm3 in X.
        rewrite (map_ext (at_node roots (ki h') (pa h')) (at_node roots (fun x => kids hb x) (fun x => pars hb x))) by (intros w; unfold at_node, fan_in, ki, pa; rewrite Kb, Pb; reflexivity).
        rewrite Lb, <- Ls, (tr_count _ _ _ _ _ _ _ _ _ _ _ Hnm Bs Hb ltac:(intros []) HF' Bt); [clear - X; lia|]. intros r I. apply Roots0 in I. destruct I as [_ I]. pose proof (iv_len _ _ _ _ _ V) as Y. rewrite Ls. clear - I Y. lia.
Qed.

Lemma split_flows s : op_ready h0 a (TSplit s) -> op_fair a (TSplit s) -> op_named a (TSplit s) ->
  exists h' u, expand_split h a s = Ok (h', u) /\ loc h a (kids h a) h' /\ after h h' a /\ exists T' B', flow (fun x => Q x /\ x <> a) (length h') (ki h') (pa h') T' B'.
Proof.
  intros Hs (Sp & y & z & o & Kp & Nd & Vy & Vz & Sum & Vo) (Nm1 & Gr & Nm2). cbn in Hs. destruct cs_node as (Oa & Ba). destruct cs_level as (lvl & El). pose proof cs_ka as Ka.
  assert (KI : forall x, In x (kids h0 a) <-> In x [y; z; o]) by (intros x; split; apply Permutation_in; [exact Kp|apply Permutation_sym, Kp]).
  assert (Iy : In y (kids h0 a)) by (apply KI; cbn; auto). assert (Iz : In z (kids h0 a)) by (apply KI; cbn; auto). assert (Io : In o (kids h0 a)) by (apply KI; cbn; auto).
  destruct (cs_kid y Iy) as (Oy & By & Nya & _). destruct (cs_kid z Iz) as (Oz & Bz & Nza & _). destruct (cs_kid o Io) as (Oo & Bo & Noa & _).
  assert (Dx : y <> z /\ y <> o /\ z <> o) by (clear - Nd; repeat match goal with H : NoDup (_ :: _) |- _ => inversion H; clear H; subst end; cbn [In] in *; intuition congruence). destruct Dx as (Nyz & Nyo & Nzo).
  assert (SP : splittable h a s lvl y z o).
  { constructor; try assumption.
    - rewrite Ka. exact Kp.
    - constructor; [|exact Nd]. intros [X|[X|[X|[]]]]; congruence.
    - rewrite (cs_value y Oy), (cs_value z Oz). auto.
    - rewrite (cs_value o Oo). exact Vo.
    - repeat split; apply cs_alone; assumption. }
  assert (KB : forall q, In q (kids h a) -> (q < length h)%nat) by (rewrite Ka; intros q I; apply (cs_kid q I)).
  destruct (split_core h a s lvl y z o SP KB) as (h' & E & Lh & Ga & Vc & _ & Pc & Kc & _ & Gy & Gz & Go). set (k := length h) in *.
  destruct (split_safe h a s lvl Ba El Hs) as (h2 & u2 & E2 & L); [rewrite Ka; intros x I; split; [apply (cs_kid x I)|apply cs_alone, I]|]. rewrite E in E2. injection E2 as <- _.
  exists h', (lvl + 1, 1). split; [exact E|]. split; [exact L|].
  assert (Kids : forall p, p <> k -> kids h' p = if (p =? a)%nat then [k; o] else kids h p).
  { intros p B'. destruct (Nat.eqb_spec p a) as [->|Na]; [rewrite Ga; reflexivity|]. destruct (Nat.eq_dec p y) as [->|Nx]; [rewrite Gy; reflexivity|]. destruct (Nat.eq_dec p z) as [->|Ny]; [rewrite Gz; reflexivity|].
    destruct (Nat.lt_ge_cases p k) as [B1|B1]; [rewrite Go by assumption; reflexivity|]. rewrite (get_beyond h), (get_beyond h') by (rewrite ?Lh; fold k; lia). reflexivity. }
  assert (Pars : forall q, q <> k -> pars h' q = if (q =? y)%nat || (q =? z)%nat then [k] else pars h q).
  { intros q B'. destruct (Nat.eqb_spec q y) as [->|Nx]; [rewrite Gy; reflexivity|]. destruct (Nat.eqb_spec q z) as [->|Ny]; [rewrite Gz; reflexivity|]. destruct (Nat.eq_dec q a) as [->|Na]; [rewrite Ga; reflexivity|].
    destruct (Nat.lt_ge_cases q k) as [B1|B1]; [rewrite Go by assumption; reflexivity|]. rewrite (get_beyond h), (get_beyond h') by (rewrite ?Lh; fold k; lia). reflexivity. }
  assert (Kk : forall q, cnt q (kids h' k) = cnt q [k; y; z]) by (intros q; apply Permutation_count_occ; destruct Kc as [->| ->]; [reflexivity|apply perm_skip, perm_swap]).
  assert (Ik : forall q, In q (kids h' k) <-> q = k \/ q = y \/ q = z) by (intros q; destruct Kc as [->| ->]; cbn; intuition congruence).
  assert (Lk : length (kids h' k) = 3%nat) by (destruct Kc as [->| ->]; reflexivity).
  assert (Bey : kids h k = [] /\ pars h k = []) by (rewrite get_beyond by (fold k; lia); split; reflexivity). destruct Bey as (Bk & Bp).
  assert (K0 : forall q, cnt q (kids h a) = cnt q [y; z; o]) by (intros q; rewrite Ka; apply (Permutation_count_occ Nat.eq_dec), Kp).
  assert (Nk : a <> k /\ y <> k /\ z <> k /\ o <> k) by (clear - Ba By Bz Bo; lia). destruct Nk as (Nka & Nky & Nkz & Nko).
  assert (Inn : forall w, inner h a h' w -> w = a \/ w = k) by (intros w [->|X]; [auto|right; rewrite Lh in X; fold k in X; lia]).
  assert (Pc1 : forall c, In c (kids h0 a) -> exists p, pars h' c = [p] /\ (p = a \/ p = k)).
  { intros c I. apply KI in I. destruct I as [<-|[<-|[<-|[]]]].
    - exists k. rewrite Pars by assumption. rewrite Nat.eqb_refl. auto.
    - exists k. rewrite Pars by assumption. rewrite Nat.eqb_refl, orb_true_r. auto.
    - exists a. rewrite Pars by assumption. rewrite (proj2 (Nat.eqb_neq o y)), (proj2 (Nat.eqb_neq o z)) by congruence. cbn [orb]. split; [apply cs_alone, Io|auto]. }
  assert (Pka : pars h' a = pars h a) by (rewrite Pars by assumption; rewrite (proj2 (Nat.eqb_neq a y)), (proj2 (Nat.eqb_neq a z)) by congruence; reflexivity).
  assert (Af : after h h' a); [|split; [exact Af|]].
  - constructor.
    + exists [], (fun _ => O). rewrite app_nil_r. split; [exact Pka|]. split; [intros p []|]. rewrite Nm1. reflexivity.
    + exists []. rewrite app_nil_r, Ga. split; [reflexivity|]. split; [constructor|]. right. right. rewrite <- Ga. exact Pka.
    + intros c I. destruct (Pc1 c I) as (p & E1 & _). split; [exists (fun _ => (a, O)); rewrite E1, (Nm2 c I); reflexivity|]. exists []. rewrite app_nil_r, E1. split; [|split; [constructor|left; cbn; lia]].
      apply KI in I. destruct I as [<-|[<-|[<-|[]]]]; [rewrite Gy; reflexivity|rewrite Gz; reflexivity|rewrite Go by (assumption || congruence); reflexivity].
  - assert (Spos : 0 < s <= 1200) by (cbn in Sp; clear - Sp; lia).
    assert (D3 : frac_of_Z 3 <> Q2Qc 0) by (apply foz_neq0; lia).
    set (q3 := (frac_of_Z s / frac_of_Z 3)%Qc) in *. assert (E3 : frac_of_Z s = (q3 + q3 + q3)%Qc) by (unfold q3; replace 3 with (1 + 1 + 1) by lia; rewrite !foz_plus, foz_1; field; intros X; apply (foz_neq0 3 ltac:(lia)); replace 3 with (1 + 1 + 1) by lia; rewrite !foz_plus, foz_1; exact X).
    assert (P3 : (Q2Qc 0 < q3)%Qc) by (rewrite <- Vy; apply Value0, Oy). pose proof (Value0 a Oa) as VA. pose proof (Value0 o Oo) as VO.
    set (t := fun w => if (w =? k)%nat then frac_of_Z s else val a). set (b := fun p w => if (p =? k)%nat then q3 else if (w =? k)%nat then (q3 + q3)%Qc else val o).
    assert (Ta : t a = val a) by (unfold t; rewrite (proj2 (Nat.eqb_neq a k)) by assumption; reflexivity).
    assert (Tk : t k = frac_of_Z s) by (unfold t; rewrite Nat.eqb_refl; reflexivity).
    assert (Bkw : forall w, b k w = q3) by (intros w; unfold b; rewrite Nat.eqb_refl; reflexivity).
    assert (Bak : b a k = (q3 + q3)%Qc) by (unfold b; rewrite (proj2 (Nat.eqb_neq a k)), Nat.eqb_refl by assumption; reflexivity).
    assert (Bao : b a o = val o) by (unfold b; rewrite (proj2 (Nat.eqb_neq a k)), (proj2 (Nat.eqb_neq o k)) by assumption; reflexivity).
    assert (Kid : kids h' a = [k; o]) by (rewrite Kids, Nat.eqb_refl by assumption; reflexivity).
    assert (Mid : forall w, w = a \/ w = k -> st_mid k a w = true) by (intros w [->| ->]; unfold st_mid; rewrite ?Nat.eqb_refl, ?Nat.leb_refl, ?orb_true_r; reflexivity).
    exists (st_through k T a t), (st_belt k B a b).
    apply (op_flow Q h h' a T B F Wa Ka ltac:(intros X; rewrite X in Iy; destruct Iy) cs_alone L t b).
    + intros w v Ap. pose proof (fg_linked Q h T B F w v Ap) as X. destruct (in_dec Nat.eq_dec v []) as [[]|_]. destruct Ap as (_ & _ & Nwv).
      destruct (Nat.eq_dec v k) as [->|Nvk].
      * rewrite Pc, (Kids w Nwv). cbn [count_occ]. destruct (Nat.eqb_spec w a) as [->|Nwa]; [cbn [count_occ]; destruct (Nat.eq_dec k k); [|congruence]; destruct (Nat.eq_dec o k); [congruence|]; destruct (Nat.eq_dec a a); congruence|].
        destruct (Nat.eq_dec a w); [congruence|]. rewrite X, Bp. reflexivity.
      * rewrite (Pars v Nvk). destruct (Nat.eq_dec w k) as [->|Nwk].
        -- rewrite Kk. cbn [count_occ]. destruct (Nat.eq_dec k v); [congruence|]. rewrite Bk in X. cbn in X. destruct (Nat.eqb_spec v y) as [->|Vy']; [destruct (Nat.eq_dec y y); [|congruence]; destruct (Nat.eq_dec z y); [congruence|]; cbn; destruct (Nat.eq_dec k k); congruence|].
           destruct (Nat.eqb_spec v z) as [->|Vz']; [destruct (Nat.eq_dec y z); [congruence|]; destruct (Nat.eq_dec z z); [|congruence]; cbn; destruct (Nat.eq_dec k k); congruence|].
           destruct (Nat.eq_dec y v); [congruence|]. destruct (Nat.eq_dec z v); [congruence|]. cbn [orb]. exact X.
        -- rewrite (Kids w Nwk). destruct (Nat.eqb_spec w a) as [->|Nwa].
           ++ rewrite K0 in X. cbn [count_occ] in X |- *. destruct (Nat.eq_dec k v); [congruence|]. destruct (Nat.eqb_spec v y) as [->|Vy']; [cbn; destruct (Nat.eq_dec o y); [congruence|]; destruct (Nat.eq_dec k a); congruence|].
              destruct (Nat.eqb_spec v z) as [->|Vz']; [cbn; destruct (Nat.eq_dec o z); [congruence|]; destruct (Nat.eq_dec k a); congruence|]. cbn [orb]. destruct (Nat.eq_dec y v); [congruence|]. destruct (Nat.eq_dec z v); [congruence|]. exact X.
           ++ rewrite X. destruct (Nat.eqb_spec v y) as [->|Vy']; [rewrite (cs_alone y Iy); cbn; destruct (Nat.eq_dec a w); [congruence|]; destruct (Nat.eq_dec k w); congruence|].
              destruct (Nat.eqb_spec v z) as [->|Vz']; [rewrite (cs_alone z Iz); cbn; destruct (Nat.eq_dec a w); [congruence|]; destruct (Nat.eq_dec k w); congruence|]. reflexivity.
    + rewrite Kid. intros [X|[X|[]]]; congruence.
    + intros w Hw. assert (w = k) as -> by (rewrite Lh in Hw; fold k in Hw; clear - Hw; lia). rewrite Pc, Kk. cbn [map count_occ length]. destruct (Nat.eq_dec k k); [|congruence]. destruct (Nat.eq_dec y k); [congruence|]. destruct (Nat.eq_dec z k); [congruence|].
      split; [|split; [intros [X|[]]; congruence|lia]]. unfold qcsum. cbn [fold_right]. rewrite Tk, Bak, Bkw, E3. change (Z.of_nat 1) with 1. rewrite foz_1. ring.
    + exists []. rewrite app_nil_r. split; [exact Pka|]. split; [intros p []|]. rewrite Ta. unfold qcsum. cbn. ring.
    + intros c I. split; [intros p J; destruct (Pc1 c I) as (p0 & Ep & Hp0); rewrite Ep in J; destruct J as [<-|[]]; destruct Hp0 as [->| ->]; [left; reflexivity|right; rewrite Lh; fold k; lia]|].
      apply KI in I. destruct I as [<-|[<-|[<-|[]]]]; rewrite Pars by assumption.
      * rewrite Nat.eqb_refl. unfold qcsum. cbn [orb map fold_right]. rewrite Bkw, Vy. ring.
      * rewrite Nat.eqb_refl, orb_true_r. unfold qcsum. cbn [map fold_right]. rewrite Bkw, Vz. ring.
      * rewrite (proj2 (Nat.eqb_neq o y)), (proj2 (Nat.eqb_neq o z)) by congruence. cbn [orb]. rewrite (cs_alone o Io). unfold qcsum. cbn [map fold_right]. rewrite Bao. ring.
    + intros w Hw. destruct (Inn w Hw) as [->| ->].
      * apply (on_backing_up _ _ _ a k o s); [unfold ki; rewrite Kid; reflexivity|congruence|apply Ik; auto|exact Sp| |].
        -- unfold st_through. fold k. rewrite (Mid k) by auto. exact Tk.
        -- unfold st_through, st_belt. fold k. rewrite (Mid a) by auto. rewrite Ta, Bao, Bak, Sum, Vy, Vz. ring.
      * apply on_equally; [unfold ki; rewrite Lk; lia|]. intros x _. unfold st_through, st_belt, ki. fold k. rewrite (Mid k), Lk, Tk, Bkw by auto. reflexivity.
    + intros w Hw. destruct (Inn w Hw) as [->| ->].
      * rewrite Ta. split; [exact VA|]. intros c I. rewrite Kid in I. destruct I as [<-|[<-|[]]]; [rewrite Bak; apply qc_pos_plus; [exact P3|apply Qclt_le_weak, P3]|rewrite Bao; exact VO].
      * rewrite Tk. split; [apply foz_pos; lia|]. intros c _. rewrite Bkw. exact P3.
    + intros w Hw. destruct (Inn w Hw) as [->| ->]; [apply reached_root; left; reflexivity|]. apply (reached_out _ _ a); [apply reached_root; left; reflexivity|]. unfold ki. rewrite Kid. left. reflexivity.
    + intros w Hw. destruct (Inn w Hw) as [->| ->]; [right; exists a; rewrite Ta; split; [exact Oa|apply Qcle_refl]|left; rewrite Tk; apply (proj1 (foz_le s 1200)); lia].
    + apply cs_counted; try assumption.
      * rewrite (Permutation_length Kp). cbn. lia.
      * rewrite Kid. cbn. lia.
      * rewrite Kid. intros [X|[X|[]]]; congruence.
      * rewrite Lh, Gr. fold k. replace (S k - k)%nat with 1%nat by lia. cbn [seq map list_sum fold_right]. unfold at_node, fan_in, ki, pa, source. rewrite Lk, Pc, Kk. cbn [count_occ]. destruct (Nat.eq_dec k k) as [_|X]; [|congruence].
        destruct (Nat.eq_dec y k) as [X|_]; [congruence|]. destruct (Nat.eq_dec z k) as [X|_]; [congruence|]. destruct (in_dec Nat.eq_dec k roots) as [X|_]; [apply Roots0 in X; destruct X as [_ X]; pose proof (iv_len _ _ _ _ _ V) as Y; unfold k in X; clear - X Y; lia|]. reflexivity.
Qed.

(** any operation *)
Lemma op_flows t : op_ready h0 a t -> op_fair a t -> op_named a t -> is_op t = true ->
  exists h' u, expand_tag h a t = Ok (h', u) /\ loc h a (kids h a) h' /\ after h h' a /\ exists T' B', flow (fun x => Q x /\ x <> a) (length h') (ki h') (pa h') T' B'.
Proof. destruct t; intros; try discriminate; [apply extract_flows|apply divide_flows|apply split_flows]; assumption. Qed.
End Cases.
End Ops.
