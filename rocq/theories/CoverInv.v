(** Expanding the tags of a node keeps what the walk over all nodes needs to
    visit every node. *)
From Verif Require Import Base BaseLemmas Cost CostSpec CostProofs Utils Fractions FractionsProofs Load Tree TreeSpec HeapLemmas Expand ExpandSpec LevelProofs
  ExpandProofs ExtractProofs FrameProofs SaveProofs MergeProofs LocalProofs MergeSafe TraverseSafe FlowOps CoverWalk CoverOps CoverTree CoverSplit.
From Coq Require Import QArith Qcanon.
Open Scope Z_scope.

Lemma in_fewer b a l x : In x (fewer b a l) -> In x l.
Proof. destruct b; [|auto]. cbn. unfold without. intros I. apply filter_In in I. apply I. Qed.
Lemma fewer_in b a l x : x <> a -> In x l -> In x (fewer b a l).
Proof. destruct b; [|auto]. cbn. unfold without. intros N I. apply filter_In. split; [exact I|]. apply negb_true_iff, Nat.eqb_neq. congruence. Qed.
Lemma cnt_fewer b a l x : x <> a -> cnt x (fewer b a l) = cnt x l.
Proof. destruct b; [|auto]. cbn. unfold without. intros N. apply cnt_filter. apply negb_true_iff, Nat.eqb_neq. congruence. Qed.
Lemma before_filter (P : nat -> bool) c f l : before c f (filter P l) -> before c f l.
Proof.
  intros (l1 & l2 & E & I). revert l1 E. induction l as [|x l IH]; intros l1 E; cbn [filter] in E; [destruct l1; discriminate|]. destruct (P x) eqn:Ex.
  - destruct l1 as [|y l1]; cbn [app] in E; injection E as <- E.
    + exists [], l. split; [reflexivity|]. rewrite <- E in I. apply filter_In in I. apply I.
    + destruct (IH l1 E) as (m1 & m2 & -> & J). exists (x :: m1), m2. auto.
  - destruct (IH l1 E) as (m1 & m2 & -> & J). exists (x :: m1), m2. auto.
Qed.
Lemma before_fewer b a c f l : before c f (fewer b a l) -> before c f l.
Proof. destruct b; [apply before_filter|auto]. Qed.
Lemma before_app c f l M : before c f (l ++ M) -> ~ In c M -> ~ In f M -> before c f l.
Proof.
  intros (l1 & l2 & E & I) Nc Nf. revert l E. induction l1 as [|x l1 IH]; intros l E; destruct l as [|y l]; cbn [app] in E.
  - exfalso. apply Nc. rewrite E. left. reflexivity.
  - injection E as -> E. exists [], l. split; [reflexivity|]. rewrite <- E in I. apply in_app_or in I. destruct I; [assumption|contradiction].
  - exfalso. apply Nc. rewrite E. right. apply in_or_app. right. left. reflexivity.
  - injection E as -> E. destruct (IH l E) as (m1 & m2 & -> & J). exists (x :: m1), m2. auto.
Qed.
Lemma before_in c f l : before c f l -> In c l /\ In f l.
Proof. intros (l1 & l2 & -> & I). split; apply in_or_app; right; [left; reflexivity|right; exact I]. Qed.

Section Inv.
Variables (h0 : heap Qc) (P : nat -> Prop).
Notation old := (old h0 P).
Notation here := (here P).
Notation rel := (rel h0).
Notation pair_of := (pair_of h0 P).
Hypothesis New : forall x, (length h0 <= x)%nat -> P x.
Hypothesis Level0 : forall x, old x -> exists l, n_level (get h0 x) = Some l.
Hypothesis Value0 : forall x, old x -> (Q2Qc 0 <= n_value (get h0 x))%Qc.
Hypothesis Kids0 : forall x c, old x -> In c (kids h0 x) -> old c.
Hypothesis Pars0 : forall x p, old x -> In p (pars h0 x) -> old p.
Hypothesis Links0 : forall x c, old x -> old c -> (In c (kids h0 x) <-> In x (pars h0 c)).
Hypothesis Tags0 : forall x t, old x -> In t (n_expands (get h0 x)) -> op_ready h0 x t.
Hypothesis One0 : forall x, old x -> (length (filter is_op (n_expands (get h0 x))) <= 1)%nat.
Hypothesis Alone0 : forall x t c, old x -> In t (n_expands (get h0 x)) -> is_op t = true -> In c (kids h0 x) -> pars h0 c = [x].
Hypothesis Half0 : forall x c v, old x -> In (TExtract c) (n_expands (get h0 x)) -> n_value (get h0 x) = frac_of_Z v -> 2 * c < v.
Hypothesis Three0 : forall x k, old x -> In (TMerge k) (n_expands (get h0 x)) -> k = 3.
Hypothesis Self0 : forall x, old x -> ~ In x (pars h0 x).
Hypothesis Sib0 : forall p c f, old p -> before c f (kids h0 p) -> c <> f -> pars h0 c = [p].

Record cov (Q : nat -> Prop) (h : heap Qc) (s : list nat) : Prop := {
  cv_inv : inv h0 P Q h s;
  cv_here : forall x, In x s -> here h x;
  cv_sib : forall p c f, here h p -> before c f (kids h p) -> c <> f -> old c -> ~ In c s -> rel h f -> ~ In f s ->
    pars h c = [p] \/ (exists x, In x s /\ pair_of x c f /\ ((exists q, In q (pars h f) /\ q <> p) \/ (2 <= cnt f (kids h p))%nat));
  cv_links : forall y p, (old y /\ ~ In y s) \/ ((length h0 <= y < length h)%nat /\ length (pars h y) = 1%nat) -> In p (pars h y) -> In y (kids h p);
  cv_new : forall y, (length h0 <= y < length h)%nat -> length (pars h y) = 3%nat \/ exists q, pars h y = [q] /\ (((length h0 <= q < y)%nat /\ length (pars h q) = 1%nat) \/ (old q /\ In q s));
  cv_pars : forall y p, old y -> ~ In y s -> In p (pars h y) -> (old p /\ In p (pars h0 y)) \/ ((length h0 <= p < length h)%nat /\ length (pars h p) = 1%nat);
  cv_some : forall y, old y -> ~ In y s -> pars h0 y <> [] -> pars h y <> [];
  cv_tags : forall y, old y -> ~ In y s -> exists extra, n_expands (get h y) = n_expands (get h0 y) ++ extra /\ Forall (eq (TMerge 3)) extra
}.
Definition clean (h : heap Qc) (s : list nat) (a : nat) : Prop := forall y, In y s -> old y -> y <> a -> n_expands (get h y) = [].
Definition Vis (h : heap Qc) (s : list nat) : Prop := cov (fun x => ~ In x s) h s /\ forall y, In y s -> old y -> n_expands (get h y) = [].

Lemma cov_start : cov (fun _ => True) h0 [].
Proof.
  constructor.
  - apply inv_start; assumption.
  - intros x [].
  - intros p c f Hp B N _ _ _ _. left. apply (Sib0 p c f Hp B N).
  - intros y p [[O _]|[B _]] I; [|lia]. apply (Links0 p y); [apply (Pars0 y p O I)|exact O|exact I].
  - intros y B. lia.
  - intros y p O _ I. left. split; [apply (Pars0 y p O I)|exact I].
  - auto.
  - intros y _ _. exists []. rewrite app_nil_r. split; [reflexivity|constructor].
Qed.
Lemma cov_less (Q Q' : nat -> Prop) h s : (forall x, Q' x -> Q x) -> cov Q h s -> cov Q' h s.
Proof. intros S C. destruct C. constructor; auto. apply (inv_less h0 P Q Q' h s S cv_inv0). Qed.
(** one more node is visited *)
Lemma cov_more Q h s a : cov Q h s -> here h a -> inv h0 P Q h (a :: s) -> cov Q h (a :: s).
Proof.
  intros C Ha V. destruct C. assert (N : forall y, ~ In y (a :: s) -> ~ In y s) by (intros y N J; apply N; right; exact J). constructor; auto.
  - intros x [<-|I]; auto.
  - intros p c f Hp B Ne O Nc R Nf. destruct (cv_sib0 p c f Hp B Ne O (N c Nc) R (N f Nf)) as [X|(x & I & X)]; [auto|]. right. exists x. split; [right; exact I|exact X].
  - intros y p [[O Ny]|X]; auto.
  - intros y B. destruct (cv_new0 y B) as [X|(q & E & [X|[X I]])]; [auto| |]; right; exists q; (split; [exact E|]); [auto|]. right. split; [exact X|right; exact I].
Qed.

Section Step.
Variables (Q : nat -> Prop) (s : list nat) (a : nat).
Hypothesis Ia : In a s.
Hypothesis Oa : old a.

Lemma cov_pop h tags : cov Q h s -> cov Q (upd a (set_expands tags) h) s.
Proof.
  intros C. set (h1 := upd a (set_expands tags) h). pose proof (inv_pop h0 P New Level0 Value0 Kids0 Pars0 Links0 Tags0 One0 Alone0 Q h s a tags (cv_inv _ _ _ C) Ia Oa) as V. fold h1 in V. destruct C.
  assert (B : (a < length h)%nat) by (pose proof (iv_len _ _ _ _ _ cv_inv0); destruct Oa; lia).
  assert (L : length h1 = length h) by apply upd_length.
  assert (G : forall x, kids h1 x = kids h x /\ pars h1 x = pars h x /\ (x <> a -> n_expands (get h1 x) = n_expands (get h x))).
  { intros x. unfold h1. destruct (Nat.eq_dec a x) as [<-|N]; [rewrite get_upd_same by exact B|rewrite get_upd_other by exact N]; repeat split; congruence. }
  assert (GK : forall x, kids h1 x = kids h x) by (intros x; apply G). assert (GP : forall x, pars h1 x = pars h x) by (intros x; apply G).
  assert (HE : forall x, here h1 x <-> here h x) by (intros x; unfold TraverseSafe.here; rewrite L; reflexivity).
  assert (RE : forall x, rel h1 x <-> rel h x) by (intros x; unfold CoverWalk.rel; rewrite GP; reflexivity).
  constructor; try assumption.
  - intros x I. apply HE, cv_here0, I.
  - intros p c f Hp B1 Ne O Nc R Nf. rewrite GK in *. rewrite !GP. apply (cv_sib0 p c f); auto; [apply HE, Hp|apply RE, R].
  - intros y p X I. rewrite !GP, L in *. rewrite GK. auto.
  - intros y By. rewrite L in By. rewrite !GP. destruct (cv_new0 y By) as [X|(q & E & X)]; [auto|]. right. exists q. rewrite GP. auto.
  - intros y p O N I. rewrite !GP, L in *. auto.
  - intros y O N X. rewrite GP. auto.
  - intros y O N. destruct (G y) as (_ & _ & ->); [auto|intros ->; contradiction].
Qed.
Lemma cov_merge h h' : cov Q h s -> mer h a h' -> merged h a h' -> cov Q h' s.
Proof.
  intros C Me Mg. pose proof (cv_here _ _ _ C a Ia) as Ha. pose proof (inv_merge h0 P New Level0 Value0 Kids0 Pars0 Links0 Tags0 One0 Alone0 Q h s a h' (cv_inv _ _ _ C) Ia Ha Me) as V'.
  pose proof (cv_inv _ _ _ C) as V. pose proof (iv_len _ _ _ _ _ V) as LL. destruct Mg. destruct C.
  assert (OB : forall y, old y -> (y < length h)%nat) by (intros y [_ ?]; lia).
  assert (HH : forall x, here h x -> here h' x) by (intros x [Px Bx]; split; [exact Px|lia]).
  assert (Oa2 : (a < length h0)%nat) by apply Oa.
  assert (NR : forall m, (length h <= m < length h')%nat -> ~ rel h' m) by (intros m Bm [X|X]; [lia|]; destruct (mg_new m Bm) as (E & _); lia).
  assert (RR : forall f, (f < length h)%nat -> f <> a -> rel h' f -> rel h f) by (intros f Bf N [X|X]; [left; exact X|right; rewrite mg_pars in X by assumption; exact X]).
  constructor.
  - exact V'.
  - intros x I. apply HH, cv_here0, I.
  - intros p c f [Pp Bp] B Ne O Nc R Nf. assert (Nca : c <> a) by (intros ->; contradiction). assert (Nfa : f <> a) by (intros ->; contradiction). pose proof (OB c O) as Bc.
    destruct (before_in _ _ _ B) as [Kc Kf]. destruct (Nat.lt_ge_cases p (length h)) as [Bp'|Bp'].
    2: { destruct (mg_new p ltac:(lia)) as (_ & _ & X). destruct (X c Kc) as [->|?]; [contradiction|lia]. }
    assert (Hp : here h p) by (split; assumption).
    assert (X : before c f (kids h p) /\ cnt f (kids h' p) = cnt f (kids h p)).
    { destruct (Nat.eq_dec p a) as [->|Np]; [rewrite mg_own in *; auto|]. destruct (mg_kids p Bp' Np) as (b & M & E & HM). rewrite E in *.
      assert (NfM : ~ In f M) by (intros I; apply (NR f (HM f I) R)). assert (NcM : ~ In c M) by (intros I; apply HM in I; lia).
      split; [apply before_app in B; [apply before_fewer in B; exact B|exact NcM|exact NfM]|]. rewrite count_occ_app, cnt_fewer by exact Nfa. rewrite (proj1 (count_occ_not_In Nat.eq_dec M f) NfM). lia. }
    destruct X as [X1 X2]. assert (Bf : (f < length h)%nat) by (apply before_in in X1; apply (iv_kids _ _ _ _ _ V p f Hp (proj2 X1))).
    rewrite X2, !mg_pars by assumption. apply (cv_sib0 p c f Hp X1 Ne O Nc); [apply RR; assumption|exact Nf].
  - intros y p X I. assert (Y : ((old y /\ ~ In y s) \/ (length h0 <= y < length h)%nat /\ length (pars h y) = 1%nat) /\ y <> a /\ (y < length h)%nat).
    { destruct X as [[O N]|[B E]]; [split; [left; auto|]; split; [intros ->; contradiction|apply OB, O]|].
      destruct (Nat.lt_ge_cases y (length h)) as [B'|B']; [|destruct (mg_new y ltac:(lia)); lia]. assert (Nya : y <> a) by lia. rewrite mg_pars in E by assumption. split; [right; split; [lia|exact E]|auto]. }
    destruct Y as (Y & Nya & By). rewrite mg_pars in I by assumption. pose proof (cv_links0 y p Y I) as K. destruct (Nat.eq_dec p a) as [->|Np]; [rewrite mg_own; exact K|].
    assert (Bp : (p < length h)%nat).
    { apply (iv_pars _ _ _ _ _ V y p); [|exact I]. split; [|exact By]. destruct Y as [[[Y _] _]|[Y _]]; [exact Y|apply New; lia]. }
    destruct (mg_kids p Bp Np) as (b & M & -> & _). apply in_or_app. left. apply fewer_in; assumption.
  - intros y B. destruct (Nat.lt_ge_cases y (length h)) as [B'|B']; [|left; apply mg_new; lia]. rewrite mg_pars by lia. destruct (cv_new0 y ltac:(lia)) as [X|(q & E & X)]; [auto|]. right. exists q. split; [exact E|].
    destruct X as [[Bq Eq]|X]; [left; split; [exact Bq|rewrite mg_pars by lia; exact Eq]|right; exact X].
  - intros y p O N I. rewrite mg_pars in I; [|apply OB, O|intros ->; contradiction]. destruct (cv_pars0 y p O N I) as [X|[Bp Ep]]; [auto|]. right. split; [lia|]. rewrite mg_pars by lia. exact Ep.
  - intros y O N X. rewrite mg_pars; [auto|apply OB, O|intros ->; contradiction].
  - intros y O N. destruct (me_old _ _ _ Me y (OB y O)) as (_ & _ & ->). auto.
Qed.
Lemma cov_op h h' : cov Q h s -> waiting h0 P Q a -> grown h a (kids h a) h' -> cov (fun x => Q x /\ x <> a) h' s.
Proof.
  intros C W G. pose proof (cv_inv _ _ _ C) as V. pose proof (inv_local h0 P New Level0 Value0 Kids0 Pars0 Links0 Tags0 One0 Alone0 Q h s a h' V Ia W (gr_loc _ _ _ _ G)) as V'.
  pose proof (iv_q1 _ _ _ _ _ V a W) as Ka. rewrite Ka in G. set (cs := kids h0 a) in *. destruct G. pose proof (iv_len _ _ _ _ _ V) as LL. destruct C. pose proof (lo_len _ _ _ _ gr_loc) as LL'.
  assert (OB : forall y, old y -> (y < length h)%nat) by (intros y [_ ?]; lia). pose proof (OB a Oa) as Ba. assert (Oa2 : (a < length h0)%nat) by apply Oa.
  assert (HH : forall x, here h x -> here h' x) by (intros x [Px Bx]; split; [exact Px|lia]).
  assert (Co : forall c, In c cs -> old c /\ ~ In c s /\ c <> a).
  { intros c I. split; [apply (Kids0 a c Oa I)|]. destruct (iv_q2 _ _ _ _ _ V a c W I) as (N & _). split; [exact N|intros ->; contradiction]. }
  assert (Al : forall c, In c cs -> pars h0 c = [a]) by (destruct W as (_ & (t & It & Op) & _); intros c I; apply (Alone0 a t c Oa It Op I)).
  assert (PS : forall y, (length h0 <= y < length h)%nat -> pars h' y = pars h y).
  { intros y B. apply (lo_pars _ _ _ _ gr_loc); [lia|lia|]. intros I. destruct (Co y I) as ([_ ?] & _). lia. }
  constructor.
  - exact V'.
  - intros x I. apply HH, cv_here0, I.
  - intros p c f [Pp Bp] B Ne O Nc R Nf. assert (Nca : c <> a) by (intros ->; contradiction). assert (Nfa : f <> a) by (intros ->; contradiction). pose proof (OB c O) as Bc.
    destruct (before_in _ _ _ B) as [Kc Kf]. assert (X : inner h a h' p \/ ((p < length h)%nat /\ p <> a)) by (unfold inner; destruct (Nat.eq_dec p a); [auto|]; destruct (Nat.lt_ge_cases p (length h)); [auto|left; right; lia]).
    destruct X as [X|[Bp' Np]].
    + assert (Ic : In c cs) by (destruct (lo_kids_in _ _ _ _ gr_loc p c X Kc) as [[?|?]|?]; [contradiction|lia|assumption]).
      destruct (gr_pair p c f X B Ne Ic) as [E|(L2 & If & D)]; [auto|]. right. exists a. split; [exact Ia|]. split; [|exact D].
      repeat split; try assumption; try apply Oa; [apply W|apply Al, Ic|apply Al, If].
    + assert (Hp : here h p) by (split; assumption). rewrite (lo_kids _ _ _ _ gr_loc p Bp' Np) in *. assert (Out : forall z, In z (kids h p) -> ~ In z cs) by (intros z I J; apply Np, (iv_q3 _ _ _ _ _ V a z p W J Hp I)).
      assert (Bf : (f < length h)%nat) by apply (iv_kids _ _ _ _ _ V p f Hp Kf).
      rewrite !(lo_pars _ _ _ _ gr_loc) by auto. apply (cv_sib0 p c f); auto. destruct R as [R|R]; [left; exact R|right; rewrite (lo_pars _ _ _ _ gr_loc) in R by auto; exact R].
  - intros y p X I. destruct (Nat.lt_ge_cases y (length h)) as [By|By].
    2: { destruct X as [[O _]|[B _]]; [apply OB in O; lia|]. destruct (gr_new y ltac:(lia)) as (q & _ & E & K). rewrite E in I. destruct I as [<-|[]]. exact K. }
    assert (Nya : y <> a) by (intros ->; destruct X as [[_ N]|[B _]]; [contradiction|lia]).
    destruct (in_dec Nat.eq_dec y cs) as [J|J]; [apply (gr_back y p J I)|].
    assert (Hy : here h y) by (split; [|exact By]; destruct X as [[[Y _] _]|[Y _]]; [exact Y|apply New; lia]).
    rewrite (lo_pars _ _ _ _ gr_loc y By Nya J) in *. assert (K : In y (kids h p)) by (apply cv_links0; [|exact I]; destruct X as [X|[X E]]; [auto|right; split; [lia|exact E]]).
    assert (Np : p <> a) by (intros ->; apply J, (iv_q4 _ _ _ _ _ V a y W Hy I)). rewrite (lo_kids _ _ _ _ gr_loc p); [exact K|apply (iv_pars _ _ _ _ _ V y p Hy I)|exact Np].
  - intros y B. destruct (Nat.lt_ge_cases y (length h)) as [B'|B'].
    + rewrite PS by lia. destruct (cv_new0 y ltac:(lia)) as [X|(q & E & X)]; [auto|]. right. exists q. split; [exact E|]. destruct X as [[Bq Eq]|X]; [left; split; [exact Bq|rewrite PS by lia; exact Eq]|right; exact X].
    + right. destruct (gr_new y ltac:(lia)) as (q & D & E & _). exists q. split; [exact E|]. destruct D as [->|D]; [right; split; [exact Oa|exact Ia]|]. left. split; [lia|]. destruct (gr_new q ltac:(lia)) as (q' & _ & -> & _). reflexivity.
  - intros y p O N I. assert (Nya : y <> a) by (intros ->; contradiction). destruct (in_dec Nat.eq_dec y cs) as [J|J].
    + destruct (gr_back y p J I) as ([->|X] & _); [left; split; [exact Oa|rewrite (Al y J); left; reflexivity]|]. right. split; [lia|]. destruct (gr_new p X) as (q' & _ & -> & _). reflexivity.
    + rewrite (lo_pars _ _ _ _ gr_loc y (OB y O) Nya J) in I. destruct (cv_pars0 y p O N I) as [X|[Bp Ep]]; [auto|]. right. split; [lia|]. rewrite PS by lia. exact Ep.
  - intros y O N X. assert (Nya : y <> a) by (intros ->; contradiction). destruct (in_dec Nat.eq_dec y cs) as [J|J]; [apply gr_some, J|]. rewrite (lo_pars _ _ _ _ gr_loc y (OB y O) Nya J). auto.
  - intros y O N. assert (Nya : y <> a) by (intros ->; contradiction). destruct (cv_tags0 y O N) as (e & E & F). destruct (in_dec Nat.eq_dec y cs) as [J|J].
    + destruct (gr_kid_tags y J) as (e' & E' & F'). exists (e ++ e'). rewrite E', E, app_assoc. split; [reflexivity|apply Forall_app; auto].
    + exists e. rewrite (lo_far _ _ _ _ gr_loc y (OB y O) Nya J). auto.
Qed.
End Step.

(** what the visit of [a] does to the lists *)
Record went (a : nat) (h h' : heap Qc) : Prop := {
  wt_len : (length h <= length h')%nat;
  wt_kids : forall w, (w < length h)%nat -> w <> a -> exists b M, kids h' w = fewer b a (kids h w) ++ M /\ forall m, In m M -> (length h <= m < length h')%nat /\ length (pars h' m) = 3%nat;
  wt_pars : forall y, (y < length h)%nat -> y <> a -> ~ (has_op h0 a /\ In y (kids h0 a)) -> pars h' y = pars h y;
  wt_keep : forall w, pars h a = [w] -> exists rest, pars h' a = w :: rest /\ ~ In w rest /\ kids h' w = kids h w;
  wt_clean : forall y, (y < length h)%nat -> y <> a -> ~ (has_op h0 a /\ In y (kids h0 a)) -> n_expands (get h' y) = n_expands (get h y);
  wt_self : ~ In a (pars h' a)
}.
Lemma went_refl a h : ~ In a (pars h a) -> went a h h.
Proof.
  intros N. constructor; auto.
  - intros w B Ne. exists false, []. rewrite app_nil_r. split; [reflexivity|intros m []].
  - intros w E. exists []. auto.
Qed.
Lemma went_pop a h g ts : (a < length g)%nat -> went a h g -> went a h (upd a (set_expands ts) g).
Proof.
  intros B W. set (g1 := upd a (set_expands ts) g). assert (L : length g1 = length g) by apply upd_length.
  assert (G : forall x, kids g1 x = kids g x /\ pars g1 x = pars g x /\ (x <> a -> n_expands (get g1 x) = n_expands (get g x))).
  { intros x. unfold g1. destruct (Nat.eq_dec a x) as [<-|N]; [rewrite get_upd_same by exact B|rewrite get_upd_other by exact N]; repeat split; congruence. }
  assert (GK : forall x, kids g1 x = kids g x) by (intros x; apply G). assert (GP : forall x, pars g1 x = pars g x) by (intros x; apply G). destruct W. constructor.
  - lia.
  - intros w Bw N. destruct (wt_kids0 w Bw N) as (b & M & E & HM). exists b, M. rewrite GK, L. split; [exact E|]. intros m I. rewrite GP. auto.
  - intros. rewrite GP. auto.
  - intros w E. rewrite GP, GK. auto.
  - intros y By N Nk. destruct (G y) as (_ & _ & ->); auto.
  - rewrite GP. exact wt_self0.
Qed.
Lemma went_merge a h g g' (k : Z) : (a < length h)%nat -> went a h g -> mer g a g' -> merged g a g' -> ((exists w, pars h a = [w]) -> forall w rest, pars g a = w :: rest -> ~ In w rest -> exists rest', pars g' a = w :: rest' /\ ~ In w rest' /\ kids g' w = kids g w) -> went a h g'.
Proof.
  intros Ba W Me Mg Kp. destruct W, Mg. constructor.
  - lia.
  - intros w Bw N. destruct (wt_kids0 w Bw N) as (b & M & E & HM). destruct (mg_kids w ltac:(lia) N) as (b' & M' & E' & HM'). exists (b || b')%bool, (M ++ M'). split.
    + rewrite E', E, fewer_fewer, app_assoc; [reflexivity|]. intros I. apply HM in I. lia.
    + intros m I. apply in_app_or in I. destruct I as [I|I]; [destruct (HM m I) as [B3 E3]; split; [lia|]; rewrite mg_pars by lia; exact E3|]. pose proof (HM' m I) as B'. split; [lia|]. apply mg_new; lia.
  - intros y By N Nk. rewrite mg_pars by (try lia; exact N). auto.
  - intros w E. destruct (wt_keep0 w E) as (rest & E1 & N1 & K1). destruct (Kp (ex_intro _ w E) w rest E1 N1) as (rest' & E2 & N2 & K2). exists rest'. rewrite K2. auto.
  - intros y By N Nk. destruct (me_old _ _ _ Me y ltac:(lia)) as (_ & _ & ->). auto.
  - intros I. destruct (mg_in a I) as [J|J]; [contradiction|lia].
Qed.
Lemma went_op a h g g' : (length h0 <= length h)%nat -> old a -> (forall w, In w (pars h a) -> (w < length h)%nat) -> ~ In a (pars h a) -> has_op h0 a -> kids g a = kids h0 a -> went a h g -> grown g a (kids g a) g' -> went a h g'.
Proof.
  intros LL Oa Bp Ns Op Ka W G. rewrite Ka in G. destruct W, G. pose proof (lo_len _ _ _ _ gr_loc) as L1. assert (Oa2 : (a < length h0)%nat) by apply Oa. constructor.
  - lia.
  - intros w Bw N. destruct (wt_kids0 w Bw N) as (b & M & E & HM). exists b, M. rewrite (lo_kids _ _ _ _ gr_loc w) by (try lia; exact N). split; [exact E|]. intros m I. destruct (HM m I) as [B3 E3]. split; [lia|].
    rewrite (lo_pars _ _ _ _ gr_loc m) by (try lia; intros J; apply (Kids0 a m Oa) in J; destruct J; lia). exact E3.
  - intros y By N Nk. rewrite (lo_pars _ _ _ _ gr_loc y) by (try lia; try exact N; intros J; apply Nk; auto). auto.
  - intros w E. destruct (wt_keep0 w E) as (rest & E1 & N1 & K1). destruct gr_loops as (loops & E2 & HL). exists (rest ++ loops). rewrite E2, E1. split; [reflexivity|].
    assert (Bw : (w < length h)%nat) by (apply Bp; rewrite E; left; reflexivity). split; [intros I; apply in_app_or in I; destruct I as [I|I]; [contradiction|apply HL in I; lia]|].
    rewrite (lo_kids _ _ _ _ gr_loc w); [exact K1|lia|]. intros ->. apply Ns. rewrite E. left. reflexivity.
  - intros y By N Nk. rewrite (lo_far _ _ _ _ gr_loc y) by (try lia; try exact N; intros J; apply Nk; auto). auto.
  - destruct gr_loops as (loops & -> & HL). intros I. apply in_app_or in I. destruct I as [I|I]; [contradiction|apply HL in I; lia].
Qed.

(** the tags of [a] *)
Section Visit.
Variables (h : heap Qc) (s : list nat) (a : nat).
Hypothesis Ia : In a s.
Hypothesis Oa : old a.
Hypothesis LL : (length h0 <= length h)%nat.
Hypothesis Bp : forall w, In w (pars h a) -> (w < length h)%nat.
Hypothesis Ns : ~ In a (pars h a).
Definition good (t : tag) : Prop := exists k, t = TMerge k /\ 2 <= k /\ ((exists w, pars h a = [w]) -> 3 <= k).
Definition stage (Q : nat -> Prop) (g : heap Qc) : Prop := cov Q g s /\ went a h g.

Lemma merges_good Q : forall ts g us rest, Forall good ts -> n_expands (get g a) = ts ++ rest -> stage Q g ->
  exists g' us' N, (forall n, expand_tags (N + n) g a us = expand_tags n g' a us') /\ stage Q g' /\ n_expands (get g' a) = rest.
Proof.
  induction ts as [|t ts IH]; intros g us rest F E [C W]; [exists g, us, O; split; [reflexivity|split; [split; assumption|exact E]]|]. inversion F as [|? ? (k & -> & Hk & H3) F']; subst. cbn [app] in E.
  pose proof (cv_inv _ _ _ C) as V. pose proof (iv_len _ _ _ _ _ V) as LLg. assert (Ba : (a < length g)%nat) by (destruct Oa; lia).
  set (g1 := upd a (set_expands (ts ++ rest)) g). assert (C1 : cov Q g1 s) by (apply cov_pop; assumption). assert (W1 : went a h g1) by (apply went_pop; assumption).
  assert (B1 : (a < length g1)%nat) by (unfold g1; rewrite upd_length; exact Ba). assert (H1 : here g1 a) by (split; [apply Oa|exact B1]).
  destruct (merge_step h0 P Q g1 s a k (cv_inv _ _ _ C1) Ia H1 Hk) as (g2 & u & E2 & M).
  assert (HP : forall p, In p (pars g1 a) -> (p < length g1)%nat /\ p <> a) by (intros p I; split; [apply (iv_pars _ _ _ _ _ (cv_inv _ _ _ C1) a p H1 I)|intros ->; apply (wt_self _ _ _ W1 I)]).
  assert (X : merged g1 a g2 /\ (3 <= k -> forall w rest, pars g1 a = w :: rest -> ~ In w rest -> exists rest', pars g2 a = w :: rest' /\ ~ In w rest' /\ kids g2 w = kids g1 w)).
  { cbn [expand_tag] in E2. unfold expand_merge in E2. destruct (merge_loop _ k g1 a) as [g'|] eqn:E3; [|discriminate]. cbn [bind] in E2. injection E2 as <- _.
    apply (merge_merged g1 a B1 HP _ k g1 g' (merged_refl g1 a) E3). }
  destruct X as [Mg Kp].
  destruct (IH g2 (us ++ [u]) rest F') as (g3 & us3 & N & E3 & S3 & X3).
  - destruct (me_old _ _ _ M a B1) as (_ & _ & ->). apply popped, Ba.
  - split; [apply (cov_merge Q s a Ia Oa g1 g2 C1 M Mg)|]. apply (went_merge a h g1 g2 k ltac:(destruct Oa; lia) W1 M Mg). intros X. apply Kp, H3, X.
  - exists g3, us3, (S N). split; [|auto]. intros n. change (S N + n)%nat with (S (N + n)). rewrite (expand_tags_cons _ _ _ _ _ _ E). fold g1. rewrite E2. cbn [bind]. apply E3.
Qed.
Lemma finish_good Q g us : Forall good (n_expands (get g a)) -> stage Q g ->
  exists g' us' N, (forall n, (N <= n)%nat -> expand_tags n g a us = Ok (g', us')) /\ stage Q g' /\ n_expands (get g' a) = [].
Proof.
  intros F S. destruct (merges_good Q (n_expands (get g a)) g us [] F ltac:(rewrite app_nil_r; reflexivity) S) as (g' & us' & N & E & S' & X).
  exists g', us', (N + 0)%nat. split; [|auto]. intros n Hn. replace n with (N + (n - N))%nat by lia. rewrite E. destruct (n - N)%nat; cbn [expand_tags]; rewrite X; reflexivity.
Qed.
Lemma good_merge l : incl l (n_expands (get h0 a)) -> Forall (fun t => is_op t = false) l -> Forall good l.
Proof.
  intros J F. rewrite Forall_forall in F |- *. intros t I. specialize (F t I). destruct t as [c|d|k|c]; try discriminate F. exists k. split; [reflexivity|]. rewrite (Three0 a k Oa (J _ I)). lia.
Qed.
Lemma good_three l : Forall (eq (TMerge 3)) l -> Forall good l.
Proof. apply Forall_impl. intros t <-. exists 3. split; [reflexivity|lia]. Qed.

Lemma tags_good (Q : nat -> Prop) : (has_op h0 a -> Q a) -> cov Q h s -> (exists extra, n_expands (get h a) = n_expands (get h0 a) ++ extra /\ Forall (eq (TMerge 3)) extra) ->
  exists g us N, (forall n, (N <= n)%nat -> expand_tags n h a [] = Ok (g, us)) /\ stage (fun x => Q x /\ x <> a) g /\ n_expands (get g a) = [].
Proof.
  intros Qa C (extra & E & F). pose proof (good_three _ F) as Fe. assert (S0 : stage Q h) by (split; [exact C|apply went_refl, Ns]).
  destruct (one_op _ (One0 a Oa)) as [M|(pre & t & post & E0 & Op & F1 & F2)].
  - apply good_merge in M; [|apply incl_refl]. assert (FF : Forall good (n_expands (get h a))) by (rewrite E; apply Forall_app; auto). destruct (finish_good Q h [] FF S0) as (g & us & N & EN & [C' W'] & X).
    exists g, us, N. split; [exact EN|]. split; [|exact X]. split; [|exact W']. revert C'. apply cov_less. tauto.
  - assert (It : In t (n_expands (get h0 a))) by (rewrite E0; apply in_app_iff; right; left; reflexivity).
    apply good_merge in F1; [|rewrite E0; intros x J; apply in_app_iff; left; exact J].
    apply good_merge in F2; [|rewrite E0; intros x J; apply in_app_iff; right; right; exact J].
    rewrite E0 in E. rewrite <- app_assoc in E. cbn [app] in E.
    destruct (merges_good Q pre h [] _ F1 E S0) as (h1 & us1 & N1 & E1 & [C1 W1] & X1).
    pose proof (iv_len _ _ _ _ _ (cv_inv _ _ _ C1)) as LL1. assert (Ba : (a < length h1)%nat) by (destruct Oa; lia).
    set (h2 := upd a (set_expands (post ++ extra)) h1). assert (C2 : cov Q h2 s) by (apply cov_pop; assumption). assert (W2 : went a h h2) by (apply went_pop; assumption).
    assert (Has : has_op h0 a) by (exists t; auto). assert (Wa : waiting h0 P Q a) by (split; [exact Oa|split; [exact Has|apply Qa, Has]]).
    destruct (op_grown h0 P Kids0 Tags0 Half0 Q h2 s a t (cv_inv _ _ _ C2) Ia Wa It Op) as (h3 & u & E3 & G3).
    pose proof (cov_op Q s a Ia Oa h2 h3 C2 Wa G3) as C3. assert (W3 : went a h h3) by (apply (went_op a h h2 h3); auto; apply (iv_q1 _ _ _ _ _ (cv_inv _ _ _ C2) a Wa)).
    destruct (gr_tags _ _ _ _ G3) as (ex & Ex & Fx). assert (E2p : n_expands (get h2 a) = post ++ extra) by (apply popped, Ba). rewrite E2p in Ex.
    assert (FF : Forall good (n_expands (get h3 a))).
    { rewrite Ex. repeat (apply Forall_app; split); try assumption. revert Fx. apply Forall_impl. intros t' <-. exists (Z.of_nat (cap_of h2 a)). split; [reflexivity|]. unfold cap_of. split; [destruct (_ =? _)%nat; lia|]. intros Np.
      destruct (Nat.eqb_spec (length (pars h2 a)) 0) as [X|X]; [|lia]. exfalso. apply length_zero_iff_nil in X. destruct Np as (w & Ep). destruct (wt_keep _ _ _ W2 w Ep) as (rest & Er & _). congruence. }
    destruct (finish_good _ h3 (us1 ++ [u]) FF (conj C3 W3)) as (h4 & us4 & N4 & E4 & S4 & X4).
    exists h4, us4, (N1 + S N4)%nat. split; [|auto].
    intros n Hn. replace n with (N1 + (S (n - N1 - 1)))%nat by lia. rewrite E1, (expand_tags_cons _ _ _ _ _ _ X1). fold h2. rewrite E3. cbn [bind]. apply E4. lia.
Qed.
End Visit.

Lemma vis_inv h s : Vis h s -> inv h0 P (fun x => ~ In x s) h s.
Proof. intros [C _]. apply C. Qed.
Lemma vis_sib h s : Vis h s -> siblings h0 P h s.
Proof. intros [C _] p l1 c l2 f Hp E I Ne O Nc R Nf. apply (cv_sib _ _ _ C p c f Hp); auto. exists l1, l2. auto. Qed.
Lemma vis_here h s x : Vis h s -> In x s -> here h x.
Proof. intros [C _]. apply C. Qed.
Lemma vis_op h s a : Vis h s -> ~ In a s -> old a -> (forall x, unseen_waiting h0 P s x -> ~ In a (kids h0 x)) ->
  exists h' us N, (forall n, (N <= n)%nat -> expand_tags n h a [] = Ok (h', us)) /\ run h0 P Vis h s h' (a :: s) /\ (forall w, In w s -> pars h a = [w] -> In a (kids h w) -> In a (kids h' w)).
Proof.
  intros [C Cl] Na Oa Pre. pose proof (cv_inv _ _ _ C) as V. pose proof (iv_len _ _ _ _ _ V) as LL. assert (Oa2 : (a < length h0)%nat) by apply Oa.
  assert (Ha : here h a) by (split; [apply Oa|lia]).
  assert (V1 : inv h0 P (fun x => ~ In x s) h (a :: s)).
  { destruct V. constructor; auto.
    - intros x Ox Nx. apply iv_tags; [exact Ox|]. intros J. apply Nx. right. exact J.
    - intros x c W J. destruct (iv_q2 x c W J) as (A & B). split; [|exact B]. intros [->|K]; [apply (Pre x W J)|contradiction]. }
  pose proof (cov_more _ h s a C Ha V1) as C1. assert (Ia : In a (a :: s)) by (left; reflexivity).
  assert (Bp : forall w, In w (pars h a) -> (w < length h)%nat) by (intros w I; apply (iv_pars _ _ _ _ _ V a w Ha I)).
  assert (Ns : ~ In a (pars h a)) by (intros I; destruct (cv_pars _ _ _ C a a Oa Na I) as [[_ X]|[X _]]; [apply (Self0 a Oa X)|lia]).
  destruct (tags_good h (a :: s) a Ia Oa LL Bp Ns (fun x => ~ In x s) (fun _ => Na) C1 (cv_tags _ _ _ C a Oa Na)) as (g & us & N & E & [C' W] & X).
  assert (Wn : forall y, In y s -> ~ (has_op h0 a /\ In y (kids h0 a))).
  { intros y I [Op J]. destruct (iv_q2 _ _ _ _ _ V a y) as (A & _); [split; [exact Oa|auto]|exact J|contradiction]. }
  assert (Nw : forall y, In y s -> y <> a) by (intros y I ->; contradiction). destruct W.
  exists g, us, N. split; [exact E|]. split.
  - constructor.
    + split.
      * revert C'. apply cov_less. intros x Nx. split; [intros J; apply Nx; right; exact J|intros ->; apply Nx; left; reflexivity].
      * intros y [<-|I] Oy; [exact X|]. rewrite wt_clean0; [apply Cl; assumption|apply (cv_here _ _ _ C y I)|apply Nw, I|apply Wn, I].
    + apply incl_tl, incl_refl.
    + exact wt_len0.
    + intros w I. destruct (wt_kids0 w (proj2 (cv_here _ _ _ C w I)) (Nw w I)) as (b & M & Ek & HM). exists (fun x => b && (x =? a)%nat)%bool, M. split; [|split].
      * rewrite Ek. f_equal. destruct b; cbn [fewer andb]; [reflexivity|symmetry; apply filter_id; reflexivity].
      * intros d Hd. apply andb_true_iff in Hd. destruct Hd as [_ Hd]. apply Nat.eqb_eq in Hd. subst d. auto.
      * intros m Im. destruct (HM m Im) as [B3 E3]. split; [lia|]. intros [R|R]; lia.
    + intros y B. apply wt_pars0; [lia|lia|]. intros [_ J]. apply (Kids0 a y Oa) in J. destruct J. lia.
    + intros x f I Ox (t & It & Op) K Nf. apply wt_pars0; [pose proof (Kids0 x f Ox K) as [_ ?]; lia|intros ->; apply Nf; left; reflexivity|].
      intros [(t' & It' & Op') J]. pose proof (Alone0 x t f Ox It Op K) as E1. pose proof (Alone0 a t' f Oa It' Op' J) as E2. rewrite E1 in E2. injection E2 as ->. contradiction.
  - intros w I Ep K. destruct (wt_keep0 w Ep) as (rest & _ & _ & ->). exact K.
Qed.
Lemma vis_new h s a : Vis h s -> ~ In a s -> here h a -> (length h0 <= a)%nat -> Vis h (a :: s).
Proof.
  intros [C Cl] Na Ha B. pose proof (cv_inv _ _ _ C) as V.
  assert (V1 : inv h0 P (fun x => ~ In x s) h (a :: s)).
  { destruct V. constructor; auto.
    - intros x Ox Nx. apply iv_tags; [exact Ox|]. intros J. apply Nx. right. exact J.
    - intros x c W J. destruct (iv_q2 x c W J) as (A & E). split; [|exact E]. intros [->|K]; [|contradiction]. apply (Kids0 x c (proj1 W)) in J. destruct J. lia. }
  split.
  - pose proof (cov_more _ h s a C Ha V1) as C1. revert C1. apply cov_less. intros x N J. apply N. right. exact J.
  - intros y [<-|I] Oy; [destruct Oy; lia|auto].
Qed.

Variable rank : nat -> nat.
Hypothesis Rank0 : forall y p, old y -> In p (pars h0 y) -> (rank p < rank y)%nat.
Variable roots : list nat.
Hypothesis Roots0 : forall r, In r roots -> old r /\ pars h0 r = [].
Hypothesis Roots1 : forall x, old x -> pars h0 x = [] -> In x roots.

Lemma all_covered n us h' us' : expand_all n h0 [] roots us = Ok (h', us') -> forall x, here h' x -> n_expands (get h' x) = [].
Proof.
  intros E. assert (V0 : Vis h0 []) by (split; [apply (cov_less (fun _ => True)); [auto|apply cov_start]|intros y []]).
  destruct (all_well h0 P Vis vis_inv vis_sib vis_here vis_op vis_new n (fun x c Ox Oc I => proj1 (Links0 x c Ox Oc) I) roots h0 [] us h' us' V0 Roots0 (le_n _)) as (s & [C Cl] & Po & _ & Rs); [|exact E|].
  { intros f _ _. left. intros w []. }
  pose proof (cv_inv _ _ _ C) as V. pose proof (iv_len _ _ _ _ _ V) as LL.
  assert (Ho : forall f x e, pair_of x e f -> old f) by (intros f x e (Ox & _ & _ & I & _); apply (Kids0 x f Ox I)).
  assert (A : forall y, (length h0 <= y < length h')%nat -> length (pars h' y) = 1%nat -> In y s).
  { induction y as [y IH] using lt_wf_ind. intros B L. destruct (cv_new _ _ _ C y B) as [X|(q & Eq & D)]; [lia|]. assert (Iq : In q s) by (destruct D as [[Bq Lq]|[_ I]]; [apply IH; lia|exact I]).
    pose proof (cv_links _ _ _ C y q (or_intror (conj B L)) ltac:(rewrite Eq; left; reflexivity)) as K. destruct (in_dec Nat.eq_dec y s) as [I|I]; [exact I|exfalso].
    assert (Ry : rel h' y) by (right; lia). destruct (Po y Ry I) as [X|(x & e & w0 & p & _ & Pr & _)]; [apply (X q Iq (fun F => F) K)|]. apply Ho in Pr. destruct Pr. lia. }
  assert (S : forall r y, rank y = r -> old y -> In y s).
  { induction r as [r IH] using lt_wf_ind. intros y Er Oy. destruct (in_dec Nat.eq_dec y s) as [I|I]; [exact I|].
    assert (D : pars h0 y = [] \/ pars h0 y <> []) by (destruct (pars h0 y); [left; reflexivity|right; discriminate]). destruct D as [D|D]; [apply Rs, Roots1; assumption|exfalso].
    pose proof (cv_some _ _ _ C y Oy I D) as So.
    assert (Sp : forall p, In p (pars h' y) -> In p s /\ In y (kids h' p)).
    { intros p J. split; [|apply (cv_links _ _ _ C y p (or_introl (conj Oy I)) J)]. destruct (cv_pars _ _ _ C y p Oy I J) as [[Op J0]|[Bp Lp]]; [|apply A; assumption]. apply (IH (rank p)); [rewrite <- Er; apply Rank0; assumption|reflexivity|exact Op]. }
    assert (Ry : rel h' y) by (left; apply Oy). destruct (Po y Ry I) as [X|(x & e & w0 & p & _ & _ & _ & _ & U & Jp & Np)].
    - destruct (pars h' y) as [|p l]; [congruence|]. destruct (Sp p (or_introl eq_refl)) as [Ip Kp]. apply (X p Ip (fun F => F) Kp).
    - destruct (Sp p Jp) as [Ip Kp]. apply Np, (U p Ip (fun F => F) Kp). }
  intros x [Px Bx]. destruct (Nat.lt_ge_cases x (length h0)) as [B|B]; [|apply (iv_new _ _ _ _ _ V x); lia].
  assert (Ox : old x) by (split; assumption). apply Cl; [apply (S _ x eq_refl Ox)|exact Ox].
Qed.
End Inv.
