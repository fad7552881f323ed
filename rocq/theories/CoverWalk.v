(** The walk over all nodes, whose loops run over lists that change meanwhile,
    visits every node. *)
From Verif Require Import Base BaseLemmas Cost CostSpec CostProofs Utils Fractions Load Tree TreeSpec HeapLemmas Expand ExpandSpec LevelProofs ExpandProofs
  FrameProofs SaveProofs MergeProofs LocalProofs MergeSafe TraverseSafe.
From Coq Require Import QArith Qcanon.
Open Scope Z_scope.

Lemma expand_tags_more : forall n h a us r, expand_tags n h a us = Ok r -> forall m, (n <= m)%nat -> expand_tags m h a us = Ok r.
Proof.
  induction n as [|n IH]; intros h a us r E m L; destruct m as [|m]; try lia; cbn [expand_tags] in *; destruct (n_expands (get h a)) as [|t rest]; try exact E; try discriminate.
  destruct (expand_tag _ a t) as [[h1 u]|]; [|discriminate]. cbn [bind] in *. apply (IH _ _ _ _ E). lia.
Qed.
Lemma filter_id {A} (f : A -> bool) l : (forall x, In x l -> f x = true) -> filter f l = l.
Proof. induction l as [|x l IH]; intros H; [reflexivity|]. cbn. rewrite H by (left; reflexivity). rewrite IH by (intros y I; apply H; right; exact I). reflexivity. Qed.
Lemma filter_both {A} (f g : A -> bool) l : filter g (filter f l) = filter (fun x => f x && g x) l.
Proof. induction l as [|x l IH]; [reflexivity|]. cbn. destruct (f x); cbn; [destruct (g x); rewrite IH; reflexivity|exact IH]. Qed.
Lemma in_firstn {A} i (l : list A) x : In x (firstn i l) -> In x l.
Proof. intros I. rewrite <- (firstn_skipn i l). apply in_or_app. left. exact I. Qed.
Lemma cnt_filter (f : nat -> bool) g l : f g = true -> cnt g (filter f l) = cnt g l.
Proof.
  intros E. induction l as [|x l IH]; [reflexivity|]. cbn [filter count_occ]. destruct (Nat.eq_dec x g) as [->|N].
  - rewrite E. cbn [count_occ]. destruct (Nat.eq_dec g g); [|congruence]. rewrite IH. reflexivity.
  - destruct (f x); [cbn [count_occ]; destruct (Nat.eq_dec x g); [contradiction|]|]; exact IH.
Qed.

Section Cover.
Variables (h0 : heap Qc) (P : nat -> Prop).
Notation old := (old h0 P).
Notation here := (here P).

(** [e] and [f] are the two outputs of the extraction [x] *)
Definition pair_of (x e f : nat) : Prop := old x /\ has_op h0 x /\ In e (kids h0 x) /\ In f (kids h0 x) /\ e <> f /\ length (kids h0 x) = 2%nat /\ pars h0 e = [x] /\ pars h0 f = [x].
Lemma pair_left x e f x' e' : pair_of x e f -> pair_of x' e' f -> x = x' /\ e = e'.
Proof.
  intros (_ & _ & I1 & I2 & N & L & P1 & P2) (_ & _ & J1 & J2 & N' & L' & P1' & P2'). assert (x = x') by congruence. subst x'. split; [reflexivity|].
  destruct (kids h0 x) as [|u [|v [|]]]; try discriminate. cbn [In] in *. intuition congruence.
Qed.
Lemma pair_right x e f x' f' : pair_of x e f -> pair_of x' e f' -> x = x' /\ f = f'.
Proof.
  intros (_ & _ & I1 & I2 & N & L & P1 & P2) (_ & _ & J1 & J2 & N' & L' & P1' & P2'). assert (x = x') by congruence. subst x'. split; [reflexivity|].
  destruct (kids h0 x) as [|u [|v [|]]]; try discriminate. cbn [In] in *. intuition congruence.
Qed.

(** the nodes that have to be visited; the others are mergers *)
Definition rel (h : heap Qc) (f : nat) : Prop := (f < length h0)%nat \/ (length (pars h f) <= 1)%nat.
Lemma rel_dec h f : rel h f \/ ~ rel h f.
Proof. unfold rel. destruct (Nat.lt_ge_cases f (length h0)); [auto|]. destruct (Nat.le_gt_cases (length (pars h f)) 1); [auto|]. right. lia. Qed.

(** after an unvisited child that may leave the list there is at most one more to visit *)
Definition siblings (h : heap Qc) (s : list nat) : Prop := forall p l1 c l2 f, here h p -> kids h p = l1 ++ c :: l2 -> In f l2 -> c <> f -> old c -> ~ In c s -> rel h f -> ~ In f s ->
  pars h c = [p] \/ (exists x, In x s /\ pair_of x c f /\ ((exists q, In q (pars h f) /\ q <> p) \/ (2 <= cnt f (kids h p))%nat)).

Variable Vis : heap Qc -> list nat -> Prop.
Hypothesis VI : forall h s, Vis h s -> inv h0 P (fun x => ~ In x s) h s.
Hypothesis VS : forall h s, Vis h s -> siblings h s.
Hypothesis VH : forall h s x, Vis h s -> In x s -> here h x.

Record run (h : heap Qc) (s : list nat) (h' : heap Qc) (s' : list nat) : Prop := {
  rn_vis : Vis h' s';
  rn_incl : incl s s';
  rn_len : (length h <= length h')%nat;
  rn_drop : forall w, In w s -> exists D M, kids h' w = filter (fun x => negb (D x)) (kids h w) ++ M /\ (forall d, D d = true -> ~ In d s /\ In d s' /\ old d) /\ (forall m, In m M -> (length h <= m)%nat /\ ~ rel h' m);
  rn_new : forall y, (length h0 <= y < length h)%nat -> pars h' y = pars h y;
  rn_out : forall x f, In x s -> old x -> has_op h0 x -> In f (kids h0 x) -> ~ In f s' -> pars h' f = pars h f
}.
Lemma run_refl h s : Vis h s -> run h s h s.
Proof.
  intros V. constructor; try (intros; reflexivity); [exact V|apply incl_refl|]. intros w I. exists (fun _ => false), []. rewrite app_nil_r. split; [symmetry; apply filter_id; reflexivity|]. split; [discriminate|intros m []].
Qed.
Lemma rel_new h h' y : (forall y, (length h0 <= y < length h)%nat -> pars h' y = pars h y) -> (y < length h)%nat -> rel h' y <-> rel h y.
Proof. intros E B. unfold rel. destruct (Nat.lt_ge_cases y (length h0)) as [L|L]; [tauto|]. rewrite (E y) by lia. reflexivity. Qed.
Lemma run_rel h s h' s' y : run h s h' s' -> (y < length h)%nat -> rel h' y <-> rel h y.
Proof. intros R. apply rel_new, (rn_new _ _ _ _ R). Qed.
Lemma run_trans h s h1 s1 h2 s2 : (length h0 <= length h)%nat -> run h s h1 s1 -> run h1 s1 h2 s2 -> run h s h2 s2.
Proof.
  intros LL R1 R2. pose proof (rn_len _ _ _ _ R1). pose proof (rn_len _ _ _ _ R2). constructor.
  - apply R2.
  - intros x I. apply (rn_incl _ _ _ _ R2), (rn_incl _ _ _ _ R1), I.
  - lia.
  - intros w I. destruct (rn_drop _ _ _ _ R1 w I) as (D1 & M1 & E1 & HD1 & HM1). destruct (rn_drop _ _ _ _ R2 w (rn_incl _ _ _ _ R1 w I)) as (D2 & M2 & E2 & HD2 & HM2).
    exists (fun x => D1 x || D2 x)%bool, (filter (fun x => negb (D2 x)) M1 ++ M2). split; [|split].
    + rewrite E2, E1, filter_app, filter_both, app_assoc. f_equal. f_equal. apply filter_ext. intros x. rewrite negb_orb. reflexivity.
    + intros d Hd. apply orb_true_iff in Hd. destruct Hd as [Hd|Hd].
      * destruct (HD1 d Hd) as (A & B & C). split; [exact A|]. split; [apply (rn_incl _ _ _ _ R2), B|exact C].
      * destruct (HD2 d Hd) as (A & B & C). split; [intros J; apply A, (rn_incl _ _ _ _ R1), J|]. auto.
    + intros m Im. apply in_app_or in Im. destruct Im as [Im|Im].
      * apply filter_In in Im. destruct (HM1 m (proj1 Im)) as (A & B). split; [exact A|]. intros C. apply B. apply (run_rel _ _ _ _ m R2); [|exact C].
        destruct Im as [Im _]. assert (K : In m (kids h1 w)) by (rewrite E1; apply in_or_app; right; exact Im).
        apply (iv_kids _ _ _ _ _ (VI _ _ (rn_vis _ _ _ _ R1)) w m); [apply (VH h1 s1); [apply R1|apply (rn_incl _ _ _ _ R1), I]|exact K].
      * destruct (HM2 m Im) as (A & B). split; [lia|exact B].
  - intros y B. rewrite (rn_new _ _ _ _ R2) by lia. apply (rn_new _ _ _ _ R1). lia.
  - intros x f I O Op K N. rewrite (rn_out _ _ _ _ R2 x f) by (auto; apply (rn_incl _ _ _ _ R1), I). apply (rn_out _ _ _ _ R1 x f); auto. intros J. apply N, (rn_incl _ _ _ _ R2), J.
Qed.
(** what a visited node still leads to *)
Lemma run_kids h s h' s' w f : run h s h' s' -> Vis h s -> In w s -> rel h' f -> In f (kids h' w) -> In f (kids h w) /\ (f < length h)%nat /\ rel h f.
Proof.
  intros R V I Rf K. destruct (rn_drop _ _ _ _ R w I) as (D & M & E & HD & HM). rewrite E in K. apply in_app_or in K. destruct K as [K|K]; [|destruct (HM f K); contradiction].
  apply filter_In in K. destruct K as [K _]. split; [exact K|]. assert (B : (f < length h)%nat) by apply (iv_kids _ _ _ _ _ (VI _ _ V) w f (VH _ _ _ V I) K). split; [exact B|]. apply (run_rel _ _ _ _ f R B), Rf.
Qed.

Definition skipped (W E : nat -> Prop) (h : heap Qc) (s : list nat) (f : nat) : Prop :=
  exists x e w0 p, In x s /\ pair_of x e f /\ In e s /\ ~ E e /\ (forall w, In w s -> ~ W w -> In f (kids h w) -> w = w0) /\ In p (pars h f) /\ p <> w0.
Definition post (W E : nat -> Prop) (h : heap Qc) (s : list nat) : Prop := forall f, rel h f -> ~ In f s ->
  (forall w, In w s -> ~ W w -> ~ In f (kids h w)) \/ skipped W E h s f.

Lemma post_trans (W E E1 E2 : nat -> Prop) h1 s1 h2 s2 : Vis h1 s1 -> run h1 s1 h2 s2 -> post W E1 h1 s1 -> post (fun w => In w s1) E2 h2 s2 ->
  (forall e, E e -> E2 e) -> (forall e, In e s1 -> E e -> E1 e) -> (forall e, In e s1 -> E2 e) -> post W E h2 s2.
Proof.
  intros V R P1 P2 H1 H2 H3 f Rf Nf. assert (Nf1 : ~ In f s1) by (intros J; apply Nf, (rn_incl _ _ _ _ R), J).
  assert (K : forall w, In w s1 -> In f (kids h2 w) -> In f (kids h1 w) /\ (f < length h1)%nat /\ rel h1 f) by (intros w I J; apply (run_kids _ _ _ _ w f R V I Rf J)).
  assert (X : (exists w, In w s1 /\ ~ W w /\ In f (kids h2 w)) -> skipped W E1 h1 s1 f) . 
  { intros (w & Iw & Nw & J). destruct (K w Iw J) as (J1 & B & Rf1). destruct (P1 f Rf1 Nf1) as [A|A]; [destruct (A w Iw Nw J1)|exact A]. }
  assert (Dec : (exists w, In w s2 /\ ~ In w s1 /\ In f (kids h2 w)) \/ forall w, In w s2 -> ~ In w s1 -> ~ In f (kids h2 w)).
  { clear. assert (G : forall l0 : list nat, (exists w, In w l0 /\ ~ In w s1 /\ In f (kids h2 w)) \/ forall w, In w l0 -> ~ In w s1 -> ~ In f (kids h2 w)); [|apply G].
    induction l0 as [|z l0 IH0]; [right; intros w []|]. destruct IH0 as [(w & A & B & C)|IH0]; [left; exists w; split; [right; exact A|auto]|].
    destruct (in_dec Nat.eq_dec z s1) as [I1|I1]; [right; intros w [<-|I]; [contradiction|apply IH0, I]|]. destruct (in_dec Nat.eq_dec f (kids h2 z)) as [I2|I2]; [left; exists z; split; [left; reflexivity|auto]|].
    right. intros w [<-|I]; [auto|apply IH0, I]. }
  destruct Dec as [(w & Iw & Nw & J)|Dec].
  - (* skipped in the second part *)
    destruct (P2 f Rf Nf) as [A|(x & e & w0 & p & Ix & Px & Ie & NE & U & Ip & Np)]; [destruct (A w Iw Nw J)|].
    right. exists x, e, w0, p. split; [exact Ix|]. split; [exact Px|]. split; [exact Ie|]. split; [intros A; apply NE, H1, A|]. split; [|auto].
    intros w' Iw' Nw' J'. destruct (in_dec Nat.eq_dec w' s1) as [I1|I1]; [|apply U; assumption].
    exfalso. destruct X as (x' & e' & _ & _ & _ & Px' & Ie' & _); [exists w'; auto|]. destruct (pair_left _ _ _ _ _ Px Px') as (_ & <-). apply NE, H3, Ie'.
  - assert (G : forall w, In w s2 -> ~ W w -> In f (kids h2 w) -> In w s1) by (intros w I Nw J; destruct (in_dec Nat.eq_dec w s1) as [I1|I1]; [exact I1|destruct (Dec w I I1 J)]).
    destruct (Nat.lt_ge_cases f (length h1)) as [B|B].
    + destruct (P1 f (proj1 (run_rel _ _ _ _ f R B) Rf) Nf1) as [A|(x & e & w0 & p & Ix & Px & Ie & NE & U & Ip & Np)].
      * left. intros w Iw Nw J. apply (A w (G w Iw Nw J) Nw). apply (K w (G w Iw Nw J) J).
      * right. exists x, e, w0, p. split; [apply (rn_incl _ _ _ _ R), Ix|]. split; [exact Px|]. split; [apply (rn_incl _ _ _ _ R), Ie|]. split; [intros A; apply NE, H2; assumption|]. split; [|split; [|exact Np]].
        -- intros w Iw Nw J. apply U; [apply (G w Iw Nw J)|exact Nw|]. apply (K w (G w Iw Nw J) J).
        -- destruct Px as (O & Op & _ & K2 & _). rewrite (rn_out _ _ _ _ R x f Ix O Op K2 Nf). exact Ip.
    + left. intros w Iw Nw J. destruct (K w (G w Iw Nw J) J) as (_ & B' & _). lia.
Qed.

Hypothesis VO : forall h s a, Vis h s -> ~ In a s -> old a -> (forall x, unseen_waiting h0 P s x -> ~ In a (kids h0 x)) ->
  exists h' us N, (forall n, (N <= n)%nat -> expand_tags n h a [] = Ok (h', us)) /\ run h s h' (a :: s) /\ (forall w, In w s -> pars h a = [w] -> In a (kids h w) -> In a (kids h' w)).
Hypothesis VN : forall h s a, Vis h s -> ~ In a s -> here h a -> (length h0 <= a)%nat -> Vis h (a :: s).

(** a visit of [c] *)
Record visit_of (c : nat) (h : heap Qc) (s : list nat) (h' : heap Qc) (s' : list nat) : Prop := {
  vo_run : run h s h' s';
  vo_seen : In c s';
  vo_post : post (fun w => In w s) (fun e => In e s \/ e = c) h' s';
  vo_keep : forall w, In w s -> pars h c = [w] -> In c (kids h w) -> In c (kids h' w)
}.
Definition visits_well (n : nat) : Prop := forall h s c h' s' us, Vis h s -> here h c -> ~ In c s -> (forall x, unseen_waiting h0 P s x -> ~ In c (kids h0 x)) ->
  expand_node n h s c = Ok (h', s', us) -> visit_of c h s h' s'.

(** ** The loop over the children of [a] *)
Section Loop.
Variables (n : nat) (a : nat) (h1 : heap Qc) (s0 : list nat).
Hypothesis Rec : visits_well n.
Hypothesis Ia : In a s0.
Hypothesis V0 : Vis h1 s0.

Definition ordinary (h : heap Qc) (s : list nat) (i : nat) : Prop := forall f, In f (firstn i (kids h a)) -> rel h f -> In f s.
Definition skipping (h : heap Qc) (s V : list nat) (i : nat) : Prop := exists x e f0, In x s /\ pair_of x e f0 /\ In e V /\
  (forall z, In z (kids h a) -> rel h z -> In z s \/ z = f0) /\ (In f0 s \/ (exists p, In p (pars h f0) /\ p <> a) \/ exists j, (i <= j)%nat /\ nth_error (kids h a) j = Some f0).
Record looping (h : heap Qc) (s V : list nat) (i : nat) : Prop := {
  lp_run : run h1 s0 h s;
  lp_direct : forall e, In e V -> In e s /\ ~ In e s0;
  lp_post : post (fun w => In w s0) (fun e => In e s0 \/ In e V) h s;
  lp_mode : ordinary h s i \/ skipping h s V i
}.
Lemma looping_start : looping h1 s0 [] 0.
Proof.
  constructor; [apply run_refl, V0|intros e []| |left; intros f []]. intros f _ _. left. intros w I N. contradiction.
Qed.

Lemma firstn_here {A} (l : list A) i c : nth_error l i = Some c -> exists pre rest, l = pre ++ c :: rest /\ length pre = i /\ firstn i l = pre.
Proof.
  intros E. destruct (nth_error_split l i E) as (pre & rest & -> & L). exists pre, rest. split; [reflexivity|]. split; [exact L|]. rewrite <- L, firstn_app, Nat.sub_diag, firstn_all. cbn. apply app_nil_r.
Qed.
Lemma firstn_next {A} (pre : list A) l i f : length pre = i -> In f (firstn (S i) (pre ++ l)) -> In f pre \/ exists rest, l = f :: rest.
Proof.
  intros L I. rewrite firstn_app in I. replace (S i - length pre)%nat with 1%nat in I by lia. apply in_app_or in I. destruct I as [I|I].
  - left. rewrite firstn_all2 in I by lia. exact I.
  - destruct l as [|y l]; [destruct I|]. destruct I as [->|[]]. right. eauto.
Qed.

(** a child that was visited before *)
Lemma loop_seen h s V i c : looping h s V i -> nth_error (kids h a) i = Some c -> In c s -> looping h s V (S i).
Proof.
  intros [R D Po Mo] E Ic. constructor; try assumption. destruct Mo as [O|(x & e & f0 & A1 & A2 & A3 & A4 & A5)].
  - left. destruct (firstn_here _ _ _ E) as (pre & rest & EL & Lp & Ef). intros f I Rf. rewrite EL in I. apply (firstn_next pre _ i f Lp) in I. destruct I as [I|(r & I)].
    + apply O; [rewrite Ef; exact I|exact Rf].
    + injection I as <- _. exact Ic.
  - right. exists x, e, f0. split; [exact A1|]. split; [exact A2|]. split; [exact A3|]. split; [exact A4|]. destruct A5 as [A5|[A5|(j & Lj & Ej)]]; [auto|auto|].
    destruct (Nat.eq_dec j i) as [->|N]; [left; congruence|]. right. right. exists j. split; [lia|exact Ej].
Qed.

Lemma nth_from {A} (l : list A) x : In x l -> exists j, nth_error l j = Some x.
Proof. apply In_nth_error. Qed.

(** a child that is visited now *)
Lemma loop_visit h s V i c h' s' us : looping h s V i -> nth_error (kids h a) i = Some c -> ~ In c s -> expand_node n h s c = Ok (h', s', us) -> looping h' s' (c :: V) (S i).
Proof.
  intros [R Di Po Mo] E Nc Ex. pose proof (rn_vis _ _ _ _ R) as Vh. pose proof (VI _ _ Vh) as Iv. pose proof (rn_incl _ _ _ _ R a Ia) as Ias. pose proof (VH _ _ _ Vh Ias) as Ha.
  destruct (firstn_here _ _ _ E) as (pre & rest & EL & Lp & Ef). assert (Ic : In c (kids h a)) by (rewrite EL; apply in_elt).
  pose proof (iv_kids _ _ _ _ _ Iv a c Ha Ic) as Hc.
  assert (Pre : forall x, unseen_waiting h0 P s x -> ~ In c (kids h0 x)).
  { intros x W J. pose proof (iv_q3 _ _ _ _ _ Iv x c a W J Ha Ic) as Eax. subst x. destruct W as (_ & _ & W). contradiction. }
  destruct (Rec h s c h' s' us Vh Hc Nc Pre Ex) as [Rn Sc Pn Kn].
  pose proof (iv_len _ _ _ _ _ (VI _ _ V0)) as LL.
  destruct (rn_drop _ _ _ _ Rn a Ias) as (D & M & EK & HD & HM).
  assert (KZ : forall z, In z (kids h' a) -> rel h' z -> In z (kids h a) /\ (z < length h)%nat /\ rel h z) by (intros z J Rz; apply (run_kids _ _ _ _ a z Rn Vh Ias Rz J)).
  assert (UN : forall z, ~ In z s' -> ~ In z s) by (intros z N J; apply N, (rn_incl _ _ _ _ Rn), J).
  constructor.
  - apply (run_trans _ _ _ _ _ _ LL R Rn).
  - intros e [<-|I]; [split; [exact Sc|]; intros J; apply Nc, (rn_incl _ _ _ _ R), J|]. destruct (Di e I) as (A & B). split; [apply (rn_incl _ _ _ _ Rn), A|exact B].
  - apply (post_trans _ _ _ _ h s h' s' Vh Rn Po Pn).
    + intros e [I|[<-|I]]; [left; apply (rn_incl _ _ _ _ R), I|auto|left; apply Di, I].
    + intros e Ie [I|[<-|I]]; [auto|contradiction|auto].
    + auto.
  - destruct Mo as [O|(x & e & f0 & A1 & A2 & A3 & A4 & A5)].
    + assert (OP : forall f, In f pre -> rel h f -> In f s) by (intros f I Rf; apply O; [rewrite Ef; exact I|exact Rf]).
      assert (FP : filter (fun x => negb (D x)) pre = pre).
      { apply filter_id. intros y I. destruct (D y) eqn:Ed; [|reflexivity]. destruct (HD y Ed) as (A & _ & B). exfalso. apply A, OP; [exact I|]. left. apply B. }
      rewrite EL, filter_app, FP in EK. cbn [filter] in EK. destruct (D c) eqn:Dc; cbn [negb] in EK.
      2: { left. intros f I Rf. rewrite EK, <- app_assoc in I. apply (firstn_next pre _ i f Lp) in I. destruct I as [I|(r & I)].
        - apply (rn_incl _ _ _ _ Rn), OP; [exact I|]. apply (KZ f); [rewrite EK, <- app_assoc; apply in_or_app; left; exact I|exact Rf].
        - injection I as <- _. exact Sc. }
      rewrite <- app_assoc in EK.
      destruct (HD c Dc) as (_ & _ & Oc).
      assert (NP : pars h c <> [a]).
      { intros EP. pose proof (Kn a Ias EP Ic) as J. rewrite EK in J. apply in_app_or in J. destruct J as [J|J].
        - apply Nc, OP; [exact J|]. left. apply Oc.
        - apply in_app_or in J. destruct J as [J|J]; [apply filter_In in J; rewrite Dc in J; destruct J; discriminate|]. destruct (HM c J) as (_ & NR). apply NR. left. apply Oc. }
      assert (SB : forall z, In z (filter (fun x => negb (D x)) rest) -> rel h z -> ~ In z s -> exists x, In x s /\ pair_of x c z /\ ((exists q, In q (pars h z) /\ q <> a) \/ (2 <= cnt z (kids h a))%nat)).
      { intros z Iz Rz Nz. apply filter_In in Iz. destruct Iz as (Iz & Dz). assert (c <> z) by (intros ->; rewrite Dc in Dz; discriminate).
        destruct (VS _ _ Vh a pre c rest z Ha EL Iz) as [A|A]; try assumption. contradiction. }
      destruct (filter (fun x => negb (D x)) rest ++ M) as [|g tl] eqn:ET.
      { left. intros f I Rf. rewrite EK, app_nil_r in I. apply (rn_incl _ _ _ _ Rn), OP; [apply in_firstn in I; exact I|]. apply (KZ f); [rewrite EK, app_nil_r; apply in_firstn in I; exact I|exact Rf]. }
      assert (Ig : In g (kids h' a)) by (rewrite EK; apply in_elt).
      destruct (in_dec Nat.eq_dec g s') as [Sg|Ng].
      { left. intros f I Rf. rewrite EK in I. apply (firstn_next pre _ i f Lp) in I. destruct I as [I|(r & I)].
        - apply (rn_incl _ _ _ _ Rn), OP; [exact I|]. apply (KZ f); [rewrite EK; apply in_or_app; left; exact I|exact Rf].
        - injection I as <- _. exact Sg. }
      destruct (rel_dec h' g) as [Rg|Rg].
      2: { left. intros f I Rf. rewrite EK in I. apply (firstn_next pre _ i f Lp) in I. destruct I as [I|(r & I)].
        - apply (rn_incl _ _ _ _ Rn), OP; [exact I|]. apply (KZ f); [rewrite EK; apply in_or_app; left; exact I|exact Rf].
        - injection I as <- _. contradiction. }
      assert (MR : forall z, In z (g :: tl) -> rel h' z -> In z (filter (fun x => negb (D x)) rest)).
      { intros z Iz Rz. rewrite <- ET in Iz. apply in_app_or in Iz. destruct Iz as [Iz|Iz]; [exact Iz|]. destruct (HM z Iz). contradiction. }
      destruct (KZ g Ig Rg) as (Kg & Bg & Rg').
      destruct (SB g (MR g (or_introl eq_refl) Rg) Rg' (UN g Ng)) as (x & Ix & Px & Cx).
      right. exists x, c, g. split; [apply (rn_incl _ _ _ _ Rn), Ix|]. split; [exact Px|]. split; [left; reflexivity|]. split.
      * intros z Iz Rz. destruct (in_dec Nat.eq_dec z s') as [|Nz]; [left; assumption|right]. destruct (KZ z Iz Rz) as (Kz & Bz & Rz'). rewrite EK in Iz. apply in_app_or in Iz. destruct Iz as [Iz|Iz].
        -- exfalso. apply (UN z Nz). apply OP; assumption.
        -- destruct (SB z (MR z Iz Rz) Rz' (UN z Nz)) as (x' & _ & Px' & _). apply (pair_right _ _ _ _ _ Px' Px).
      * right. destruct Cx as [(q & Iq & Nq)|Cx].
        -- left. exists q. split; [|exact Nq]. destruct Px as (Ox & Op & _ & Kx & _). rewrite (rn_out _ _ _ _ Rn x g Ix Ox Op Kx Ng). exact Iq.
        -- right. rewrite EL, count_occ_app in Cx. cbn [count_occ] in Cx. destruct (Nat.eq_dec c g) as [Ecg|_]; [exfalso; apply Ng; rewrite <- Ecg; exact Sc|].
           assert (C0 : cnt g pre = 0%nat) by (apply count_occ_not_In; intros J; apply (UN g Ng), OP; assumption).
           assert (Dg : negb (D g) = true) by (pose proof (MR g (or_introl eq_refl) Rg) as J; apply filter_In in J; apply J).
           assert (C2 : (2 <= cnt g (g :: tl))%nat) by (rewrite <- ET, count_occ_app, (cnt_filter (fun x => negb (D x)) g rest Dg); lia). cbn [count_occ] in C2. destruct (Nat.eq_dec g g); [|congruence].
           assert (J : In g tl) by (apply (count_occ_In Nat.eq_dec); lia). destruct (nth_from tl g J) as (j & Ej). exists (i + S j)%nat. split; [lia|].
           rewrite EK, nth_error_app2 by lia. replace (i + S j - length pre)%nat with (S j) by lia. exact Ej.
    + right. exists x, e, f0. split; [apply (rn_incl _ _ _ _ Rn), A1|]. split; [exact A2|]. split; [right; exact A3|]. split.
      * intros z Iz Rz. destruct (KZ z Iz Rz) as (Kz & _ & Rz'). destruct (A4 z Kz Rz') as [A|A]; [left; apply (rn_incl _ _ _ _ Rn), A|auto].
      * destruct (in_dec Nat.eq_dec f0 s') as [|Nf]; [left; assumption|right]. destruct A5 as [A5|[(p & Ip & Np)|(j & Lj & Ej)]]; [destruct (UN f0 Nf A5)| |].
        -- left. exists p. split; [|exact Np]. destruct A2 as (Ox & Op & _ & Kx & _). rewrite (rn_out _ _ _ _ Rn x f0 A1 Ox Op Kx Nf). exact Ip.
        -- right. exists j. split; [destruct (Nat.eq_dec j i) as [->|]; [exfalso; apply Nf; congruence|lia]|]. rewrite EK, filter_id.
           ++ rewrite nth_error_app1; [exact Ej|]. apply nth_error_Some. congruence.
           ++ intros y I. destruct (D y) eqn:Dy; [|reflexivity]. exfalso. destruct (HD y Dy) as (N1 & I1 & O1). destruct (A4 y I (or_introl (proj2 O1))) as [A|A]; [contradiction|subst y; contradiction].
Qed.

Lemma loop_all : forall k i h s V us h2 s2 us2, looping h s V i -> iterate (expand_node n) a k i h s us = Ok (h2, s2, us2) -> exists V2 i2, looping h2 s2 V2 i2 /\ nth_error (kids h2 a) i2 = None.
Proof.
  induction k as [|k IH]; intros i h s V us h2 s2 us2 L E; rewrite iterate_eq in E; destruct (nth_error (kids h a) i) as [c|] eqn:En; try discriminate.
  - injection E as <- <- <-. eauto.
  - destruct (nat_in c s) eqn:Ec.
    + apply (IH (S i) h s V us h2 s2 us2); [|exact E]. apply (loop_seen h s V i c L En). apply nat_in_true, Ec.
    + assert (Nc : ~ In c s) by (intros J; apply nat_in_true in J; congruence). destruct (expand_node n h s c) as [[[h' s'] us']|] eqn:Ex; [|discriminate]. cbn [bind] in E.
      apply (IH (S i) h' s' (c :: V) (us ++ us') h2 s2 us2); [|exact E]. apply (loop_visit h s V i c h' s' us' L En Nc Ex).
  - injection E as <- <- <-. eauto.
Qed.
Lemma loop_end h s V i : looping h s V i -> nth_error (kids h a) i = None -> forall f, In f (kids h a) -> rel h f -> ~ In f s ->
  exists x e p, In x s /\ pair_of x e f /\ In e V /\ In p (pars h f) /\ p <> a.
Proof.
  intros [R Di Po Mo] E f I Rf Nf. apply nth_error_None in E. destruct Mo as [O|(x & e & f0 & A1 & A2 & A3 & A4 & A5)].
  - exfalso. apply Nf, O; [rewrite firstn_all2 by exact E; exact I|exact Rf].
  - destruct (A4 f I Rf) as [A|<-]; [contradiction|]. destruct A5 as [A5|[(p & Ip & Np)|(j & Lj & Ej)]]; [contradiction| |].
    + exists x, e, p. auto.
    + exfalso. assert (j < length (kids h a))%nat by (apply nth_error_Some; congruence). lia.
Qed.
End Loop.

Lemma node_well : forall n, visits_well n.
Proof.
  induction n as [|n IH]; intros h s a h2 s2 us V Ha Na Pre E; [discriminate|]. rewrite expand_node_S in E.
  assert (Ea : nat_in a s = false) by (destruct (nat_in a s) eqn:Ea; [apply nat_in_true in Ea; contradiction|reflexivity]). rewrite Ea in E.
  destruct (expand_tags n h a []) as [[h1 us1]|] eqn:Et; [|discriminate]. cbn [bind] in E. pose proof (VI _ _ V) as Iv. pose proof (iv_len _ _ _ _ _ Iv) as LL.
  assert (T : run h s h1 (a :: s) /\ (forall w, In w s -> pars h a = [w] -> In a (kids h w) -> In a (kids h1 w))).
  { destruct (Nat.lt_ge_cases a (length h0)) as [B|B].
    - destruct (VO h s a V Na (conj (proj1 Ha) B) Pre) as (h1' & us' & N & EN & R & K). specialize (EN (Nat.max n N) ltac:(lia)). rewrite (expand_tags_more _ _ _ _ _ Et (Nat.max n N)) in EN by lia. injection EN as -> _. auto.
    - assert (h1 = h) as -> by (destruct n; cbn [expand_tags] in Et; rewrite (iv_new _ _ _ _ _ Iv a) in Et by (destruct Ha; lia); congruence).
      pose proof (VN h s a V Na Ha B) as V'. split; [|auto]. constructor; try (intros; reflexivity); [exact V'|apply incl_tl, incl_refl|].
      intros w I. exists (fun _ => false), []. rewrite app_nil_r. split; [symmetry; apply filter_id; reflexivity|]. split; [discriminate|intros m []]. }
  destruct T as (R1 & K1). pose proof (rn_vis _ _ _ _ R1) as V1.
  destruct (loop_all n a h1 (a :: s) IH (or_introl eq_refl) V1 n 0 h1 (a :: s) [] us1 h2 s2 us (looping_start a h1 (a :: s) V1) E) as (Vd & i & L & En).
  pose proof (loop_end a h1 (a :: s) h2 s2 Vd i L En) as Fin. destruct L as [R2 Di Po _]. 
  assert (Ia : In a s2) by (apply (rn_incl _ _ _ _ R2); left; reflexivity).
  constructor.
  - apply (run_trans _ _ _ _ _ _ LL R1 R2).
  - exact Ia.
  - intros f Rf Nf. destruct (in_dec Nat.eq_dec f (kids h2 a)) as [If|If].
    + right. destruct (Fin f If Rf Nf) as (x & e & p & Ix & Px & Ie & Ip & Np). destruct (Di e Ie) as (Ies & Nes). exists x, e, a, p. split; [exact Ix|]. split; [exact Px|]. split; [exact Ies|]. split.
      * intros [J| ->]; apply Nes; [right; exact J|left; reflexivity].
      * split; [|auto]. intros w Iw Nw J. destruct (Nat.eq_dec w a) as [|Ne]; [assumption|]. exfalso.
        assert (Nw' : ~ In w (a :: s)) by (intros [<-|K]; contradiction).
        destruct (Po f Rf Nf) as [A|(x' & e' & w0 & p' & _ & Px' & _ & NE & _)]; [apply (A w Iw Nw' J)|]. destruct (pair_left _ _ _ _ _ Px Px') as (_ & <-). apply NE. right. exact Ie.
    + assert (Q : forall w, In w s2 -> ~ In w s -> In f (kids h2 w) -> ~ In w (a :: s)) by (intros w Iw Nw J [<-|K]; contradiction).
      destruct (Po f Rf Nf) as [A|(x & e & w0 & p & Ix & Px & Ie & NE & U & Ip & Np)].
      * left. intros w Iw Nw J. apply (A w Iw (Q w Iw Nw J) J).
      * right. exists x, e, w0, p. split; [exact Ix|]. split; [exact Px|]. split; [exact Ie|]. split; [|split; [|auto]].
        -- intros [J| ->]; apply NE; left; [right; exact J|left; reflexivity].
        -- intros w Iw Nw J. apply (U w Iw (Q w Iw Nw J) J).
  - intros w Iw Ep J. specialize (K1 w Iw Ep J). destruct (rn_drop _ _ _ _ R2 w (or_intror Iw)) as (D & M & EK & HD & _). rewrite EK. apply in_or_app. left. apply filter_In. split; [exact K1|].
    destruct (D a) eqn:Da; [|reflexivity]. destruct (HD a Da) as (N & _). exfalso. apply N. left. reflexivity.
Qed.

(** ** All the roots *)
Lemma all_well n : (forall x c, old x -> old c -> In c (kids h0 x) -> In x (pars h0 c)) -> forall roots h s us h2 us2, Vis h s -> (forall r, In r roots -> old r /\ pars h0 r = []) -> (length h0 <= length h)%nat ->
  post (fun _ => False) (fun _ => False) h s ->
  expand_all n h s roots us = Ok (h2, us2) -> exists s2, Vis h2 s2 /\ post (fun _ => False) (fun _ => False) h2 s2 /\ incl s s2 /\ forall r, In r roots -> In r s2.
Proof.
  intros Links. induction roots as [|r roots IH]; intros h s us h2 us2 V R LL Po E; cbn [expand_all] in E.
  - injection E as <- <-. exists s. split; [exact V|]. split; [exact Po|]. split; [apply incl_refl|intros r []].
  - destruct (expand_node n h s r) as [[[h1 s1] us1]|] eqn:Ex; [|discriminate]. cbn [bind] in E. destruct (R r (or_introl eq_refl)) as (Or & Pr).
    assert (X : Vis h1 s1 /\ post (fun _ => False) (fun _ => False) h1 s1 /\ incl s s1 /\ In r s1 /\ (length h <= length h1)%nat).
    { destruct (in_dec Nat.eq_dec r s) as [I|I].
      - destruct n as [|n]; [discriminate|]. rewrite expand_node_S in Ex. rewrite (proj2 (nat_in_true _ _) I) in Ex. injection Ex as <- <- _. split; [exact V|]. split; [exact Po|]. split; [apply incl_refl|]. auto.
      - destruct (node_well n h s r h1 s1 us1 V) as [Rn Sr Pn _]; [split; [apply Or|destruct Or; lia]|exact I| |exact Ex|].
        + intros x (Ox & _) J. apply (Links x r Ox Or) in J. rewrite Pr in J. destruct J.
        + split; [apply Rn|]. split; [|split; [apply Rn|split; [exact Sr|apply Rn]]]. apply (post_trans _ _ _ _ h s h1 s1 V Rn Po Pn); [intros e []|intros e _ []|auto]. }
    destruct X as (V1 & P1 & I1 & Ir & L1). destruct (IH h1 s1 (us ++ us1) h2 us2 V1) as (s2 & V2 & P2 & I2 & R2); [intros q Iq; apply R; right; exact Iq|lia|exact P1|exact E|].
    exists s2. split; [exact V2|]. split; [exact P2|]. split; [intros y J; apply I2, I1, J|]. intros q [<-|Iq]; [apply I2, Ir|apply R2, Iq].
Qed.
End Cover.
