(** Expanding all the tags of a node, and then of all nodes, keeps the flow. *)
From Verif Require Import Base BaseLemmas Cost CostSpec CostProofs Utils Fractions FractionsProofs Load Tree TreeSpec HeapLemmas Expand ExpandSpec LevelProofs ExpandProofs
  FrameProofs MergeProofs LocalProofs MergeSafe TraverseSafe FlowSpec FlowProofs FlowMerge FlowOps.
From Coq Require Import QArith Qcanon.
Open Scope Z_scope.

Lemma in_firstn_map {A B} (f : A -> B) k l x : In x (firstn k l) -> In (f x) (firstn k (map f l)).
Proof. intros I. rewrite firstn_map. apply in_map, I. Qed.
Lemma in_skipn_map {A B} (f : A -> B) k l x : In x (skipn k l) -> In (f x) (skipn k (map f l)).
Proof. intros I. rewrite skipn_map. apply in_map, I. Qed.
(** no element is both kept and merged *)
Definition whole {A} (cap : nat) (l : list A) : Prop := forall x, In x (firstn (kept cap (length l)) l) -> ~ In x (skipn (kept cap (length l)) l).
Lemma whole_map {A B} (f : A -> B) cap l : whole cap (map f l) -> whole cap l.
Proof. intros W x I J. rewrite <- (map_length f) in I, J. apply (W (f x)); [apply in_firstn_map, I|apply in_skipn_map, J]. Qed.
Lemma whole_nodup {A} cap (l : list A) : NoDup l -> whole cap l.
Proof.
  intros N x I J. rewrite <- (firstn_skipn (kept cap (length l)) l) in N. revert I J. generalize dependent (skipn (kept cap (length l)) l). generalize (firstn (kept cap (length l)) l). intros u v N I J.
  induction u as [|y u IH]; [destruct I|]. inversion N as [|? ? N1 N2]; subst. destruct I as [->|I]; [apply N1, in_or_app; right; exact J|apply (IH N2 I)].
Qed.
Lemma whole_short {A} cap (l : list A) : (length l <= cap)%nat -> whole cap l.
Proof. intros L x _. unfold kept. rewrite (proj2 (Nat.leb_le _ _) L), skipn_all. auto. Qed.
Lemma nodup_head {A} (u v : list A) : NoDup (u ++ v) -> NoDup u.
Proof. induction u as [|x u IH]; intros N; [constructor|]. inversion N as [|? ? N1 N2]; subst. constructor; [|apply IH, N2]. intros I. apply N1, in_or_app. left. exact I. Qed.
Lemma nodup_apart {A} (u v : list A) x : NoDup (u ++ v) -> In x u -> ~ In x v.
Proof. induction u as [|y u IH]; intros N I; [destruct I|]. inversion N as [|? ? N1 N2]; subst. destruct I as [->|I]; [intros J; apply N1, in_or_app; right; exact J|apply (IH N2 I)]. Qed.

Section Walk.
Variables (h0 : heap Qc) (P : nat -> Prop) (roots : list nat) (pend : nat -> nat) (total : nat).
Notation old := (old h0 P).
Notation val := (val h0).
Notation flow := (fg h0 P roots pend total).
Hypothesis New : forall x, (length h0 <= x)%nat -> P x.
Hypothesis Level0 : forall x, old x -> exists l, n_level (get h0 x) = Some l.
Hypothesis Pos0 : forall x, old x -> (Q2Qc 0 < val x)%Qc.
Hypothesis Value0 : forall x, old x -> (Q2Qc 0 <= n_value (get h0 x))%Qc.
Hypothesis Kids0 : forall x c, old x -> In c (kids h0 x) -> old c.
Hypothesis Pars0 : forall x p, old x -> In p (pars h0 x) -> old p.
Hypothesis Links0 : forall x c, old x -> old c -> (In c (kids h0 x) <-> In x (pars h0 c)).
Hypothesis Tags0 : forall x t, old x -> In t (n_expands (get h0 x)) -> op_ready h0 x t.
Hypothesis One0 : forall x, old x -> (length (filter is_op (n_expands (get h0 x))) <= 1)%nat.
Hypothesis Alone0 : forall x t c, old x -> In t (n_expands (get h0 x)) -> is_op t = true -> In c (kids h0 x) -> pars h0 c = [x].
Hypothesis Roots0 : forall r, In r roots -> old r.
Hypothesis Roots1 : forall x, old x -> (pars h0 x = [] <-> In x roots).
Hypothesis Fair0 : forall x t, old x -> In t (n_expands (get h0 x)) -> op_fair h0 x t.
Variables (D : nat -> list (nat * nat)) (Lo : nat -> list nat) (grow : nat -> nat).
Hypothesis Pend : forall x, pend x = (grow x + (length (Lo x) + (length (D x) + source roots x) mod 2) / 2 + list_sum (map (fun c => length (D c) / 2) (kids h0 x)))%nat.
Hypothesis Named0 : forall x t, old x -> In t (n_expands (get h0 x)) -> op_named h0 D Lo grow x t.
Hypothesis Distinct0 : forall y, old y -> (3 < length (pars h0 y))%nat -> NoDup (D y).
Hypothesis Whole0 : forall y, old y -> whole (if (length (pars h0 y) =? 0)%nat then 2 else 3)%nat (D y ++ map (pair y) (Lo y)).
Hypothesis Form0 : forall x, old x -> exists own, n_expands (get h0 x) = (if (3 <? length (pars h0 x))%nat then [TMerge 3] else []) ++ own /\ (own = [] /\ Lo x = [] \/ exists t, own = [t] /\ is_op t = true).

Definition Vinv (seen : list nat) (h : heap Qc) : Prop := inv h0 P (fun x => ~ In x seen) h seen.
Record names (seen : list nat) (h : heap Qc) : Prop := {
  nm_pars : forall y, old y -> ~ In y seen -> (forall x, waiting h0 P (fun x => ~ In x seen) x -> ~ In y (kids h0 x)) -> exists f, map f (pars h y) = D y;
  nm_tags : forall y, old y -> ~ In y seen -> exists extra, n_expands (get h y) = n_expands (get h0 y) ++ extra /\ Forall (eq (TMerge 3)) extra /\
    (pars h0 y = [] -> extra = []) /\ ((length (pars h y) <= 3)%nat \/ In (TMerge 3) (n_expands (get h y)));
  nm_done : forall y, old y -> In y seen -> (length (pars h y) <= if (length (pars h0 y) =? 0)%nat then 2 else 3)%nat
}.
Definition flowing (Q : nat -> Prop) (h : heap Qc) : Prop := exists T B, flow Q (length h) (ki h) (pa h) T B.

(** the fields that matter *)
Lemma flowing_same Q h h' : length h' = length h -> (forall x, kids h' x = kids h x /\ pars h' x = pars h x) -> flowing Q h -> flowing Q h'.
Proof.
  intros L E (T & B & F). exists T, B. rewrite L. apply (fg_perm h0 P roots pend total Roots0 Q (length h) (ki h)); [intros x _; unfold ki; rewrite (proj1 (E x)); reflexivity|].
  apply (fg_ext h0 P roots pend total Q (length h) (ki h) (pa h)); [intros x _; unfold pa; rewrite (proj2 (E x)); reflexivity|exact F].
Qed.
Lemma has_op_dec x : has_op h0 x \/ ~ has_op h0 x.
Proof.
  unfold has_op. destruct (existsb is_op (n_expands (get h0 x))) eqn:E.
  - left. apply existsb_exists in E. exact E.
  - right. intros (t & I & O). assert (existsb is_op (n_expands (get h0 x)) = true) by (apply existsb_exists; eauto). congruence.
Qed.
Lemma flowing_less (Q Q' : nat -> Prop) h : (forall x, old x -> has_op h0 x -> (Q x <-> Q' x)) -> flowing Q h -> flowing Q' h.
Proof. intros E (T & B & F). exists T, B. apply (fg_less h0 P roots pend total Q Q'); [exact E|intros x _; apply has_op_dec|exact F]. Qed.
Lemma pop_fields (h : heap Qc) a ts x : kids (upd a (set_expands ts) h) x = kids h x /\ pars (upd a (set_expands ts) h) x = pars h x.
Proof.
  destruct (Nat.lt_ge_cases x (length h)) as [B|B]; [|rewrite !get_beyond by (rewrite ?upd_length; exact B); auto].
  destruct (Nat.eq_dec a x) as [->|N]; [rewrite get_upd_same by exact B|rewrite get_upd_other by exact N]; auto.
Qed.
Lemma pop_other (h : heap Qc) a ts x : x <> a -> n_expands (get (upd a (set_expands ts) h) x) = n_expands (get h x).
Proof. intros N. rewrite get_upd_other by congruence. reflexivity. Qed.

(** nothing but [a] changes *)
Definition frame (a : nat) (h h' : heap Qc) : Prop := (length h <= length h')%nat /\
  forall x, old x -> x <> a -> pars h' x = pars h x /\ n_expands (get h' x) = n_expands (get h x).
Lemma frame_trans a h1 h2 h3 : frame a h1 h2 -> frame a h2 h3 -> frame a h1 h3.
Proof. intros (L1 & F1) (L2 & F2). split; [lia|]. intros x Ox N. destruct (F1 x Ox N) as (<- & <-). apply F2; assumption. Qed.

Section Node.
Variables (Q : nat -> Prop) (seen : list nat) (a : nat).
Hypothesis Ia : In a seen.
Hypothesis Oa : old a.

(** one merge *)
Lemma one_merge h us cap rest : n_expands (get h a) = TMerge (Z.of_nat cap) :: rest -> (2 <= cap)%nat -> inv h0 P Q h seen -> flowing Q h -> whole cap (pars h a) ->
  exists h' us', (forall n, expand_tags (S n) h a us = expand_tags n h' a us') /\ inv h0 P Q h' seen /\ flowing Q h' /\ n_expands (get h' a) = rest /\ frame a h h' /\
  (length (pars h' a) <= cap)%nat /\ Nat.even (length (pars h' a)) = Nat.even (length (pars h a)) /\
  exists M, pars h' a = firstn (kept cap (length (pars h a))) (pars h a) ++ M /\ (length M <= 1)%nat /\ (M = [] -> (length (pars h a) <= cap)%nat) /\ forall c, In c M -> (length h <= c)%nat.
Proof.
  intros E Cap V F W. pose proof (iv_len _ _ _ _ _ V) as LL. assert (Ba : (a < length h)%nat) by (destruct Oa; lia).
  set (h1 := upd a (set_expands rest) h). assert (V1 : inv h0 P Q h1 seen) by (apply inv_pop; assumption).
  assert (L1 : length h1 = length h) by apply upd_length. assert (B1 : (a < length h1)%nat) by lia. assert (H1 : here P h1 a) by (split; [apply Oa|exact B1]).
  destruct (merge_step h0 P Q h1 seen a (Z.of_nat cap) V1 Ia H1 ltac:(lia)) as (h2 & u & E2 & M).
  assert (V2 : inv h0 P Q h2 seen) by (eapply inv_merge; eassumption).
  assert (F1 : flowing Q h1) by (apply (flowing_same Q h); [exact L1|apply pop_fields|exact F]). destruct F1 as (T & B & F1).
  assert (P1 : pars h1 a = pars h a) by apply pop_fields.
  destruct (merge_flow h0 P roots pend total New Kids0 Roots0 Pos0 Q h1 a cap Oa Cap h2 u T B F1 E2) as (F2 & Lc & X); [rewrite P1; exact W|]. rewrite P1, L1 in X.
  exists h2, (us ++ [u]). split; [|split; [exact V2|split; [exact F2|split; [|split; [|split; [exact Lc|exact X]]]]]].
  - intros n. rewrite (expand_tags_cons n h a us (TMerge (Z.of_nat cap)) rest E). fold h1. rewrite E2. reflexivity.
  - destruct (me_old _ _ _ M a B1) as (_ & _ & ->). apply popped, Ba.
  - pose proof (me_len _ _ _ M) as LM. split; [lia|]. intros x Ox N. assert (Bx : (x < length h1)%nat) by (destruct Ox; lia).
    rewrite (me_pars _ _ _ M x Bx N). destruct (me_old _ _ _ M x Bx) as (_ & _ & ->). split; [apply pop_fields|apply pop_other, N].
Qed.

(** all merges left at the end *)
Lemma last_merges cap : (2 <= cap)%nat -> forall ts h us, n_expands (get h a) = ts -> Forall (eq (TMerge (Z.of_nat cap))) ts -> inv h0 P Q h seen -> flowing Q h -> whole cap (pars h a) ->
  ((length (pars h a) <= cap)%nat \/ ts <> []) ->
  exists h' us' N, (forall n, (N <= n)%nat -> expand_tags n h a us = Ok (h', us')) /\ inv h0 P Q h' seen /\ flowing Q h' /\ frame a h h' /\ (length (pars h' a) <= cap)%nat.
Proof.
  intros Cap. induction ts as [|t ts IH]; intros h us E Ft V F W Sh.
  - exists h, us, O. split; [intros n _; destruct n; cbn [expand_tags]; rewrite E; reflexivity|]. split; [exact V|]. split; [exact F|]. split; [split; [lia|auto]|]. destruct Sh as [Sh|Sh]; [exact Sh|congruence].
  - pose proof (Forall_inv Ft) as <-. pose proof (Forall_inv_tail Ft) as Ft'. destruct (one_merge h us cap ts E Cap V F W) as (h1 & us1 & E1 & V1 & F1 & X1 & Fr1 & L1 & _).
    destruct (IH h1 us1 X1 Ft' V1 F1 (whole_short cap _ L1) (or_introl L1)) as (h2 & us2 & N & E2 & V2 & F2 & Fr2 & L2).
    exists h2, us2, (S N). split; [|split; [exact V2|split; [exact F2|split; [apply (frame_trans a h h1 h2 Fr1 Fr2)|exact L2]]]]. intros n Hn. destruct n as [|n]; [lia|]. rewrite E1. apply E2. lia.
Qed.
End Node.

(** the roots are the nodes without parents, at any time before they are visited *)
Lemma no_parents Q h a : flowing Q h -> old a -> (~ has_op h0 a \/ Q a) -> (pars h a = [] <-> pars h0 a = []).
Proof.
  intros (T & B & F) Oa Qa. pose proof (fg_len _ _ _ _ _ _ _ _ _ _ _ F) as LL. pose proof (old_inside h0 P _ a LL Oa) as Ha. pose proof (fg_val _ _ _ _ _ _ _ _ _ _ _ F a Oa Qa) as Ev.
  pose proof (fg_bal _ _ _ _ _ _ _ _ _ _ _ F a Ha) as Eb. unfold ki, pa in Eb. rewrite (cnt_out a (kids h a)) in Eb by apply (fg_own _ _ _ _ _ _ _ _ _ _ _ F a Oa). change (Z.of_nat 0) with 0 in Eb. rewrite foz_0, Ev in Eb.
  rewrite (Roots1 a Oa). unfold input in Eb. destruct (in_dec Nat.eq_dec a roots) as [I|I].
  - split; [auto|]. intros _. destruct (pars h a) as [|p ps] eqn:Ep; [reflexivity|]. exfalso.
    assert (X : forall q, In q (p :: ps) -> (Q2Qc 0 < B q a)%Qc) by (intros q J; apply (fg_into h0 P roots pend total Q (length h) (ki h) (pa h) T B a q F Ha); unfold pa; rewrite Ep; exact J).
    cbn [map qcsum fold_right] in Eb. fold (qcsum (map (fun p => B p a) ps)) in Eb.
    assert (Y : (Q2Qc 0 < B p a + qcsum (map (fun p => B p a) ps))%Qc).
    { apply qc_pos_plus; [apply X; left; reflexivity|]. apply qcsum_nonneg. intros v J. apply in_map_iff in J. destruct J as (q & <- & J). apply Qclt_le_weak, X. right. exact J. }
    apply (Qclt_not_eq _ _ Y). apply (f_equal (fun v => v - val a)%Qc) in Eb. ring_simplify in Eb. rewrite <- Eb at 1. reflexivity.
  - split; [|tauto]. intros Ep. exfalso. rewrite Ep in Eb. unfold qcsum in Eb. cbn [map fold_right] in Eb. apply (Qclt_not_eq _ _ (Pos0 a Oa)). symmetry. etransitivity; [exact Eb|ring].
Qed.

Lemma waiting_less seen a x : waiting h0 P (fun x => ~ In x (a :: seen)) x -> waiting h0 P (fun x => ~ In x seen) x /\ x <> a.
Proof. intros (A & B & C). split; [split; [exact A|split; [exact B|]]|]; [intros J; apply C; right; exact J|intros ->; apply C; left; reflexivity]. Qed.

(** a visit of an old node keeps the names of all others *)
Section Visit.
Variables (h : heap Qc) (seen : list nat) (a : nat).
Hypothesis V : inv h0 P (fun x => ~ In x seen) h seen.
Hypothesis F : flowing (fun x => ~ In x seen) h.
Hypothesis N : names seen h.
Hypothesis Na : ~ In a seen.
Hypothesis Oa : old a.
Hypothesis Pre : forall x, unseen_waiting h0 P seen x -> ~ In a (kids h0 x).
Let capn : nat := if (length (pars h0 a) =? 0)%nat then 2%nat else 3%nat.

Lemma names_plain h' : ~ has_op h0 a -> frame a h h' -> (length (pars h' a) <= capn)%nat -> names (a :: seen) h'.
Proof.
  intros No (LL & Fr) Lc. constructor.
  - intros y Oy Ny W. assert (y <> a) by (intros ->; apply Ny; left; reflexivity). destruct (Fr y Oy) as (-> & _); [assumption|]. apply (nm_pars _ _ N y Oy); [intros J; apply Ny; right; exact J|].
    intros x (W1 & W2 & W3). apply W. split; [exact W1|]. split; [exact W2|]. intros [<-|J]; contradiction.
  - intros y Oy Ny. assert (y <> a) by (intros ->; apply Ny; left; reflexivity). destruct (Fr y Oy) as (-> & ->); [assumption|]. apply (nm_tags _ _ N y Oy). intros J; apply Ny; right; exact J.
  - intros y Oy [<-|J]; [exact Lc|]. assert (y <> a) by (intros ->; contradiction). destruct (Fr y Oy) as (-> & _); [assumption|]. apply (nm_done _ _ N y Oy J).
Qed.
Lemma names_op h1 h2 h3 t : In t (n_expands (get h0 a)) -> is_op t = true -> frame a h h1 -> loc h1 a (kids h0 a) h2 -> after h0 D Lo h1 h2 a -> frame a h2 h3 -> (length (pars h3 a) <= capn)%nat -> names (a :: seen) h3.
Proof.
  intros It Op (L1 & Fr1) Lo2 Af (L3 & Fr3) Lc. assert (Ha : has_op h0 a) by (exists t; auto).
  assert (Wa : waiting h0 P (fun x => ~ In x seen) a) by (split; [exact Oa|]; split; [exact Ha|exact Na]).
  assert (Far : forall y, old y -> y <> a -> ~ In y (kids h0 a) -> pars h3 y = pars h y /\ n_expands (get h3 y) = n_expands (get h y)).
  { intros y Oy Ny Nk. destruct (Fr3 y Oy Ny) as (-> & ->). destruct (Fr1 y Oy Ny) as (<- & <-). pose proof (iv_len _ _ _ _ _ V) as LL. assert (By : (y < length h1)%nat) by (destruct Oy; lia).
    split; [apply (lo_pars _ _ _ _ Lo2 y By Ny Nk)|]. rewrite (lo_far _ _ _ _ Lo2 y By Ny Nk). reflexivity. }
  constructor.
  - intros y Oy Ny W. assert (Nya : y <> a) by (intros ->; apply Ny; left; reflexivity). assert (Ns : ~ In y seen) by (intros J; apply Ny; right; exact J). destruct (in_dec Nat.eq_dec y (kids h0 a)) as [I|I].
    + destruct (Fr3 y Oy Nya) as (-> & _). apply (af_kids _ _ _ _ _ _ Af y I).
    + destruct (Far y Oy Nya I) as (-> & _). apply (nm_pars _ _ N y Oy Ns). intros x (W1 & W2 & W3) J. destruct (Nat.eq_dec x a) as [->|Nx]; [contradiction|]. revert J. apply W. split; [exact W1|]. split; [exact W2|]. intros [<-|K]; [congruence|contradiction].
  - intros y Oy Ny. assert (Nya : y <> a) by (intros ->; apply Ny; left; reflexivity). assert (Ns : ~ In y seen) by (intros J; apply Ny; right; exact J).
    destruct (nm_tags _ _ N y Oy Ns) as (ex & E1 & E2 & E3 & E4). destruct (in_dec Nat.eq_dec y (kids h0 a)) as [I|I].
    + destruct (Fr3 y Oy Nya) as (-> & ->). destruct (af_kids _ _ _ _ _ _ Af y I) as (_ & ex2 & X1 & X2 & X3). destruct (Fr1 y Oy Nya) as (_ & T1). rewrite T1, E1 in X1. exists (ex ++ ex2).
      split; [rewrite X1, app_assoc; reflexivity|]. split; [apply Forall_app; auto|]. split; [intros Z; apply (Links0 a y Oa Oy) in I; rewrite Z in I; destruct I|].
      destruct X3 as [X3|X3]; [left; exact X3|right]. rewrite X1. apply in_or_app. right. destruct ex2 as [|e ex2]; [congruence|]. pose proof (Forall_inv X2) as <-. left. reflexivity.
    + destruct (Far y Oy Nya I) as (-> & ->). exists ex. auto.
  - intros y Oy [<-|J]; [exact Lc|]. assert (Nya : y <> a) by (intros ->; contradiction). destruct (Far y Oy Nya) as (-> & _); [|apply (nm_done _ _ N y Oy J)].
    intros I. apply (iv_q2 _ _ _ _ _ V a y Wa I). exact J.
Qed.

Lemma inv_mark : inv h0 P (fun x => ~ In x seen) h (a :: seen).
Proof.
  destruct V. constructor; auto.
  - intros x Ox Nx. apply iv_tags; [exact Ox|]. intros J. apply Nx. right. exact J.
  - intros x c W J. destruct (iv_q2 x c W J) as (A & B). split; [|exact B]. intros [->|K]; [apply (Pre x W J)|contradiction].
Qed.
Lemma kept_3 n : (3 < n)%nat -> (1 <= kept 3 n <= 2)%nat.
Proof. clear. intros L. unfold kept. rewrite (proj2 (Nat.leb_gt n 3) L). destruct (Nat.even (n - 3)); lia. Qed.
Lemma whole_grown (l loops : list nat) b : (2 <= length l)%nat -> NoDup l -> (forall p, In p l -> (p < b)%nat) -> (forall p, In p loops -> (b <= p)%nat) -> whole 3 (l ++ loops).
Proof.
  clear. intros L2 Nd Bl Bp. destruct (Nat.le_gt_cases (length (l ++ loops)) 3) as [L|L]; [apply whole_short, L|]. pose proof (kept_3 _ L) as Hk. set (k := kept 3 (length (l ++ loops))) in *. intros x I J. fold k in I, J.
  rewrite firstn_app in I. replace (k - length l)%nat with O in I by lia. cbn [firstn] in I. rewrite app_nil_r in I. rewrite skipn_app in J. replace (k - length l)%nat with O in J by lia. cbn [skipn] in J.
  apply in_app_or in J. destruct J as [J|J]; [apply (nodup_apart (firstn k l) (skipn k l) x); try assumption; rewrite firstn_skipn; exact Nd|].
  assert (Ix : In x l) by (rewrite <- (firstn_skipn k l); apply in_or_app; left; exact I). apply Bl in Ix. apply Bp in J. lia.
Qed.

Lemma visit_flow : exists h' us M, (forall n, (M <= n)%nat -> expand_tags n h a [] = Ok (h', us)) /\ inv h0 P (fun x => ~ In x (a :: seen)) h' (a :: seen) /\ flowing (fun x => ~ In x (a :: seen)) h' /\
  names (a :: seen) h' /\ (length h <= length h')%nat.
Proof.
  pose proof inv_mark as V1. assert (Ia : In a (a :: seen)) by (left; reflexivity). set (Q := fun x => ~ In x seen) in *.
  destruct (nm_pars _ _ N a Oa Na Pre) as (f0 & Ef). destruct (nm_tags _ _ N a Oa Na) as (extra & Et & Fe & Re & Sh). destruct (Form0 a Oa) as (own & Eo & Ow).
  pose proof (no_parents Q h a F Oa (or_intror Na)) as RT. pose proof (Whole0 a Oa) as W0. fold capn in W0. pose proof (iv_len _ _ _ _ _ V) as LL. assert (Ha : here P h a) by (split; [apply Oa|destruct Oa; lia]).
  assert (Bp : forall p, In p (pars h a) -> (p < length h)%nat) by (intros p I; apply (iv_pars _ _ _ _ _ V a p Ha I)).
  assert (Cap2 : (2 <= capn)%nat) by (unfold capn; destruct (_ =? _)%nat; lia).
  assert (C0 : pars h0 a = [] -> capn = 2%nat) by (unfold capn; intros ->; reflexivity).
  assert (C1 : pars h0 a <> [] -> capn = 3%nat) by (unfold capn; destruct (pars h0 a); [congruence|reflexivity]).
  assert (Fc : pars h0 a <> [] -> Forall (eq (TMerge (Z.of_nat capn))) extra) by (intros X; rewrite (C1 X); exact Fe).
  assert (Fe' : Forall (eq (TMerge (Z.of_nat capn))) extra).
  { destruct (pars h0 a) as [|p0 ps0] eqn:Ep0; [rewrite (Re eq_refl); constructor|apply Fc; discriminate]. }
  assert (Less : forall h', inv h0 P (fun x => Q x /\ x <> a) h' (a :: seen) -> inv h0 P (fun x => ~ In x (a :: seen)) h' (a :: seen)).
  { intros h'. apply inv_less. intros x Nx. split; [intros J; apply Nx; right; exact J|intros ->; apply Nx; left; reflexivity]. }
  destruct Ow as [(-> & EL)|(t & -> & Op)].
  - rewrite app_nil_r in Eo. assert (No : ~ has_op h0 a).
    { intros (t & I & O). rewrite Eo in I. destruct (3 <? length (pars h0 a))%nat; [destruct I as [<-|[]]; discriminate O|destruct I]. }
    rewrite EL in W0. cbn [map] in W0. rewrite app_nil_r, <- Ef in W0. apply whole_map in W0.
    assert (Ft : Forall (eq (TMerge (Z.of_nat capn))) (n_expands (get h a))).
    { rewrite Et, Eo. apply Forall_app. split; [|exact Fe']. destruct (Nat.ltb_spec 3 (length (pars h0 a))) as [X|X]; [|constructor]. rewrite C1 by (intros Z; rewrite Z in X; cbn in X; lia). repeat constructor. }
    destruct (last_merges Q (a :: seen) a Ia Oa capn Cap2 _ h [] eq_refl Ft V1 F W0) as (h' & us & M & E & V' & F' & Fr & Lc).
    { destruct (pars h0 a) as [|p0 ps0] eqn:Ep0; [left; rewrite (proj2 RT eq_refl); cbn; lia|]. rewrite C1 by discriminate. destruct Sh as [Sh|Sh]; [left; exact Sh|right]. intros Z. rewrite Z in Sh. destruct Sh. }
    exists h', us, M. split; [exact E|]. split; [|split; [|split; [apply (names_plain h' No Fr Lc)|apply Fr]]].
    + revert V'. apply inv_less. intros x Nx J. apply Nx. right. exact J.
    + revert F'. apply flowing_less. intros x _ Hx. unfold Q. cbn [In]. split; [intros A [<-|B]; contradiction|intros A B; apply A; right; exact B].
  - assert (It : In t (n_expands (get h0 a))) by (rewrite Eo; apply in_or_app; right; left; reflexivity).
    assert (S1 : exists h1 us1 N1, (forall n, expand_tags (N1 + n) h a [] = expand_tags n h1 a us1) /\ inv h0 P Q h1 (a :: seen) /\ flowing Q h1 /\ n_expands (get h1 a) = t :: extra /\ frame a h h1 /\ Nat.even (length (pars h1 a)) = Nat.even (length (pars h a)) /\
      (pars h1 a = pars h a /\ ((length (pars h a) <= 3)%nat \/ extra <> []) \/ (2 <= length (pars h1 a) <= 3)%nat /\ NoDup (pars h1 a) /\ pars h0 a <> [])).
    { rewrite Eo in Et. destruct (Nat.ltb_spec 3 (length (pars h0 a))) as [X|X].
      - assert (NE : pars h0 a <> []) by (intros Z; rewrite Z in X; cbn in X; lia). assert (Nd : NoDup (pars h a)) by (apply (NoDup_map_inv f0); rewrite Ef; apply Distinct0; assumption).
        destruct (one_merge Q (a :: seen) a Ia Oa h [] 3 (t :: extra) Et ltac:(lia) V1 F (whole_nodup 3 _ Nd)) as (h1 & us1 & E1 & V2 & F2 & X1 & Fr & Lc & Pr & M & EM & LM & M0 & MB).
        exists h1, us1, 1%nat. split; [exact E1|]. split; [exact V2|]. split; [exact F2|]. split; [exact X1|]. split; [exact Fr|]. split; [exact Pr|]. destruct M as [|c [|c' M]]; [| |cbn in LM; lia].
        + left. specialize (M0 eq_refl). rewrite app_nil_r in EM. unfold kept in EM. rewrite (proj2 (Nat.leb_le _ _) M0), firstn_all in EM. auto.
        + right. assert (NP : pars h a <> []) by (intros Z; apply NE, RT, Z). assert (Hk : (1 <= kept 3 (length (pars h a)) <= length (pars h a))%nat).
          { destruct (Nat.le_gt_cases (length (pars h a)) 3) as [Y|Y]; [unfold kept; rewrite (proj2 (Nat.leb_le _ _) Y); destruct (pars h a); [congruence|cbn; lia]|pose proof (kept_3 _ Y); lia]. }
          split; [split; [|exact Lc]; rewrite EM, app_length, firstn_length; cbn; lia|]. split; [|exact NE]. rewrite EM. rewrite <- (firstn_skipn (kept 3 (length (pars h a))) (pars h a)) in Nd. apply nodup_head in Nd.
          apply (Permutation_NoDup (Permutation_cons_append _ c)). constructor; [|exact Nd]. intros J.
          assert (Jc : In c (pars h a)) by (rewrite <- (firstn_skipn (kept 3 (length (pars h a))) (pars h a)); apply in_or_app; left; exact J). apply Bp in Jc. pose proof (MB c (or_introl eq_refl)). lia.
      - exists h, [], O. split; [reflexivity|]. split; [exact V1|]. split; [exact F|]. split; [exact Et|]. split; [split; [lia|auto]|]. split; [reflexivity|]. left. split; [reflexivity|].
        destruct Sh as [Sh|Sh]; [left; exact Sh|right]. rewrite Et in Sh. cbn [app] in Sh. destruct Sh as [Z|Sh]; [rewrite Z in Op; discriminate Op|]. intros Z. rewrite Z in Sh. destruct Sh. }
    destruct S1 as (h1 & us1 & N1 & E1 & V2 & F2 & X1 & Fr1 & Pr1 & Sh1). pose proof (iv_len _ _ _ _ _ V2) as LL1. assert (Ba1 : (a < length h1)%nat) by (destruct Oa; lia).
    set (h2 := upd a (set_expands extra) h1). assert (V3 : inv h0 P Q h2 (a :: seen)) by (apply inv_pop; assumption). assert (L2 : length h2 = length h1) by apply upd_length.
    assert (F3 : flowing Q h2) by (apply (flowing_same Q h1); [exact L2|apply pop_fields|exact F2]). pose proof (proj2 (pop_fields h1 a extra a)) as P2. fold h2 in P2.
    assert (Fr2 : frame a h h2) by (apply (frame_trans a h h1 h2 Fr1); split; [lia|]; intros x Ox Nx; split; [apply pop_fields|apply pop_other, Nx]).
    assert (W : waiting h0 P Q a) by (split; [exact Oa|]; split; [exists t; auto|exact Na]).
    pose proof (no_parents Q h2 a F3 Oa (or_intror Na)) as RT2. destruct F3 as (T3 & B3 & F3).
    assert (Below0 : forall x c, old x -> In c (kids h0 x) -> ~ In c roots).
    { intros x c Ox I J. pose proof (Kids0 x c Ox I) as Oc. apply (Roots1 c Oc) in J. apply (Links0 x c Ox Oc) in I. rewrite J in I. destruct I. }
    assert (Ev : Nat.even (length (pars h2 a)) = Nat.even (length (D a))) by (rewrite P2, Pr1, <- Ef, map_length; reflexivity).
    destruct (op_flows h0 P roots pend total New Kids0 Roots0 Pos0 Below0 D Lo grow Pend Q h2 (a :: seen) a T3 B3 F3 V3 W Ev t (Tags0 a t Oa It) (Fair0 a t Oa It) (Named0 a t Oa It) Op) as (h3 & u & E3 & L3 & Af & F4).
    assert (V4 : inv h0 P (fun x => Q x /\ x <> a) h3 (a :: seen)) by (eapply inv_local; eassumption). rewrite (iv_q1 _ _ _ _ _ V3 a W) in L3.
    assert (CO : cap_of h2 a = capn) by (unfold cap_of; destruct (pars h0 a) as [|p0 ps0] eqn:Ep0; [rewrite (proj2 RT2 eq_refl), C0; reflexivity|rewrite C1 by discriminate]; destruct (pars h2 a) as [|q qs] eqn:Eq; [discriminate (proj1 RT2 eq_refl)|reflexivity]).
    destruct (af_tags _ _ _ _ _ _ Af) as (ex2 & T1 & T2 & T4). rewrite CO in T2, T4. unfold h2 in T1. rewrite popped in T1 by exact Ba1. destruct (af_loops _ _ _ _ _ _ Af) as (loops & fl & Ep & Bl & Ml).
    assert (Ft : Forall (eq (TMerge (Z.of_nat capn))) (extra ++ ex2)) by (apply Forall_app; auto).
    assert (Wh : whole capn (pars h3 a)).
    { rewrite Ep, P2. destruct Sh1 as [(Eq & _)|((S1 & S2) & S3 & S4)].
      - rewrite Eq. apply (whole_map (fun p => if (p <? length h2)%nat then f0 p else (a, fl p))). rewrite map_app. 
        rewrite (map_ext_in _ f0 (pars h a)) by (intros p I; rewrite (proj2 (Nat.ltb_lt p (length h2))); [reflexivity|pose proof (Bp p I); destruct Fr2; lia]).
        rewrite (map_ext_in _ (fun p => (a, fl p)) loops) by (intros p I; rewrite (proj2 (Nat.ltb_ge p (length h2))); [reflexivity|apply Bl, I]).
        rewrite Ef, <- (map_map fl (pair a)), Ml. exact W0.
      - rewrite C1 by exact S4. apply (whole_grown _ _ (length h2)); [exact S1|exact S3| |intros p I; apply (Bl p I)]. intros p I. rewrite <- P2 in I. apply (iv_pars _ _ _ _ _ V3 a p); [split; [apply Oa|lia]|exact I]. }
    destruct (last_merges (fun x => Q x /\ x <> a) (a :: seen) a Ia Oa capn Cap2 _ h3 (us1 ++ [u]) T1 Ft V4 F4 Wh) as (h4 & us4 & N4 & E4 & V5 & F5 & Fr4 & Lc).
    { destruct T4 as [T4|[T4|T4]]; [left; exact T4|right; intros Z; apply app_eq_nil in Z; destruct Z; contradiction|]. rewrite T4, P2. destruct Sh1 as [(Eq & Q1)|((S1 & S2) & S3 & S4)]; [|left; rewrite (C1 S4); exact S2]. rewrite Eq.
      destruct (pars h0 a) as [|p0 ps0] eqn:Ep0; [left; rewrite (proj2 RT eq_refl); cbn; lia|]. rewrite C1 by discriminate. destruct Q1 as [Q1|Q1]; [left; exact Q1|right]. intros Z. apply app_eq_nil in Z. destruct Z. contradiction. }
    exists h4, us4, (N1 + S N4)%nat. split; [|split; [apply Less, V5|split; [|split; [apply (names_op h2 h3 h4 t); assumption|destruct Fr4, Fr2; pose proof (lo_len _ _ _ _ L3); lia]]]].
    + intros n Hn. replace n with (N1 + (S (n - N1 - 1)))%nat by lia. rewrite E1, (expand_tags_cons _ _ _ _ _ _ X1). fold h2. rewrite E3. cbn [bind]. apply E4. lia.
    + revert F5. apply flowing_less. intros x _ Hx. unfold Q. cbn [In]. split; [intros (A1 & A2) [<-|B]; [congruence|contradiction]|intros A; split; [intros B; apply A; right; exact B|intros ->; apply A; left; reflexivity]].
Qed.
End Visit.

(** ** All nodes *)
Definition kept_flow (h : heap Qc) (seen : list nat) : Prop := inv h0 P (fun x => ~ In x seen) h seen /\ flowing (fun x => ~ In x seen) h /\ names seen h.
Lemma start_names : (forall y, old y -> (forall p, In p (pars h0 y) -> ~ has_op h0 p) -> exists f, map f (pars h0 y) = D y) -> names [] h0.
Proof.
  intros N0. constructor.
  - intros y Oy _ W. apply N0; [exact Oy|]. intros p I Hp. pose proof (Pars0 y p Oy I) as Op. apply (W p); [split; [exact Op|split; [exact Hp|intros []]]|]. apply (Links0 p y Op Oy), I.
  - intros y Oy _. exists []. rewrite app_nil_r. split; [reflexivity|]. split; [constructor|]. split; [auto|]. destruct (Form0 y Oy) as (own & E & _). rewrite E. destruct (Nat.ltb_spec 3 (length (pars h0 y))) as [X|X]; [right; left; reflexivity|left; exact X].
  - intros y _ [].
Qed.
Lemma all_flow : flowing (fun _ => True) h0 -> (forall y, old y -> (forall p, In p (pars h0 y) -> ~ has_op h0 p) -> exists f, map f (pars h0 y) = D y) ->
  exists M h' seen, (forall n, (M <= n)%nat -> expand_roots n h0 roots = Ok h') /\ flowing (fun x => ~ In x seen) h' /\ names seen h' /\ (forall x, old x -> n_value (get h' x) = val x).
Proof.
  intros S0 N0. destruct (walk_safe h0 P New Level0 Value0 Kids0 Pars0 Links0 Tags0 One0 Alone0 kept_flow) with (roots := roots) as (M & h' & h1 & sn & E & (V & F & Nm) & (L & A)).
  - intros h seen (V & _). exact V.
  - intros h seen a (V & F & Nm) Na Oa Pre. destruct (visit_flow h seen a V F Nm Na Oa Pre) as (h' & us & M & E & V' & F' & N' & LL). exists h', us, M. split; [exact E|]. split; [split; [exact V'|split; assumption]|exact LL].
  - intros h seen a (V & F & Nm) Na Ha B. assert (No : ~ old a) by (intros (_ & X); lia). assert (Wl : forall x, waiting h0 P (fun x => ~ In x (a :: seen)) x <-> waiting h0 P (fun x => ~ In x seen) x).
    { intros x. split; intros (W1 & W2 & W3); (split; [exact W1|]; split; [exact W2|]); [intros J; apply W3; right; exact J|intros [<-|J]; contradiction]. }
    split; [|split].
    + destruct V. constructor; auto.
      * intros x Ox Nx. apply iv_tags; [exact Ox|]. intros J. apply Nx. right. exact J.
      * intros x W. apply iv_q1, Wl, W.
      * intros x c W J. destruct (iv_q2 x c (proj1 (Wl x) W) J) as (A & B'). split; [|exact B']. intros [->|K]; [|contradiction]. apply No, (Kids0 x c); [apply W|exact J].
      * intros x c y W. apply iv_q3, Wl, W.
      * intros x y W. apply iv_q4, Wl, W.
    + revert F. apply flowing_less. intros x Ox _. split; [intros A [<-|J]; contradiction|intros A J; apply A; right; exact J].
    + destruct Nm as [N1 N2 N3]. constructor.
      * intros y Oy Ny W. apply N1; [exact Oy|intros J; apply Ny; right; exact J|]. intros x Wx. apply W, Wl, Wx.
      * intros y Oy Ny. apply N2; [exact Oy|]. intros J; apply Ny; right; exact J.
      * intros y Oy [<-|J]; [contradiction|]. apply N3; assumption.
  - split; [|split; [|apply start_names, N0]].
    + pose proof (inv_start h0 P New Level0 Value0 Kids0 Pars0 Links0 Tags0 One0 Alone0) as X. revert X. apply inv_less. auto.
    + revert S0. apply flowing_less. intros x _ _. cbn. tauto.
  - intros r I. split; [apply Roots0, I|]. apply Roots1; [apply Roots0, I|exact I].
  - exists M, h', sn. split; [exact E|]. split; [apply (flowing_same _ h1); [exact L|intros x; destruct (A x) as (A1 & A2 & _); auto|exact F]|]. split.
    + destruct Nm as [N1 N2 N3]. constructor; intros y; destruct (A y) as (_ & A2 & _ & A4); rewrite ?A2, ?A4; [apply N1|apply N2|apply N3].
    + intros x Ox. destruct (A x) as (_ & _ & -> & _). apply (iv_keep _ _ _ _ _ V x Ox).
Qed.
End Walk.
