(** Expanding all the operations of a network does not fail when no node is
    overloaded, and ends. *)
From Verif Require Import Base BaseLemmas Cost CostSpec CostProofs Utils Fractions FractionsProofs Load Tree TreeSpec HeapLemmas Expand ExpandSpec LevelProofs ExpandProofs ExtractProofs FrameProofs SaveProofs LocalProofs MergeSafe.
From Coq Require Import QArith Qcanon.
Open Scope Z_scope.

Definition is_op (t : tag) : bool := match t with TMerge _ => false | _ => true end.
(** what a tag needs of its node *)
Definition op_ready (h : heap Qc) (x : nat) (t : tag) : Prop :=
  match t with
  | TDivide d => 2 <= d /\ NoDup (kids h x) /\ Z.of_nat (length (kids h x)) = d /\
      (forall n m l s, find_n_m_l d = Ok (n, m, l, s) -> (n_value (get h x) + frac_of_Z l * n_value (get h x) / frac_of_Z d <= frac_of_Z conveyor_speed_limit)%Qc)
  | TExtract c => exists v ext ovf, n_value (get h x) = frac_of_Z v /\ 3 <= v /\ 0 < c < v /\ ext <> ovf /\
      (kids h x = [ext; ovf] \/ kids h x = [ovf; ext] /\ 2 * c <> v) /\ n_value (get h ext) = frac_of_Z c /\ n_value (get h ovf) = frac_of_Z (v - c) /\
      (forall n m l s, find_n_m_l (v / Z.gcd v (v - c)) = Ok (n, m, l, s) -> v + l * Z.gcd v (v - c) <= conveyor_speed_limit)
  | TSplit c => 0 <= c
  | TMerge k => 2 <= k
  end.

Section Safe.
Variables (h0 : heap Qc) (P : nat -> Prop).
Definition old (x : nat) : Prop := P x /\ (x < length h0)%nat.
Hypothesis New : forall x, (length h0 <= x)%nat -> P x.
Hypothesis Level0 : forall x, old x -> exists l, n_level (get h0 x) = Some l.
Hypothesis Value0 : forall x, old x -> (Q2Qc 0 <= n_value (get h0 x))%Qc.
Hypothesis Kids0 : forall x c, old x -> In c (kids h0 x) -> old c.
Hypothesis Pars0 : forall x p, old x -> In p (pars h0 x) -> old p.
Hypothesis Links0 : forall x c, old x -> old c -> (In c (kids h0 x) <-> In x (pars h0 c)).
Hypothesis Tags0 : forall x t, old x -> In t (n_expands (get h0 x)) -> op_ready h0 x t.
Hypothesis One0 : forall x, old x -> (length (filter is_op (n_expands (get h0 x))) <= 1)%nat.
Hypothesis Alone0 : forall x t c, old x -> In t (n_expands (get h0 x)) -> is_op t = true -> In c (kids h0 x) -> pars h0 c = [x].

Definition has_op (x : nat) : Prop := exists t, In t (n_expands (get h0 x)) /\ is_op t = true.
(** an operation not expanded yet *)
Definition waiting (Q : nat -> Prop) (x : nat) : Prop := old x /\ has_op x /\ Q x.
Definition here (h : heap Qc) (x : nat) : Prop := P x /\ (x < length h)%nat.

Record inv (Q : nat -> Prop) (h : heap Qc) (seen : list nat) : Prop := {
  iv_len : (length h0 <= length h)%nat;
  iv_level : forall x, here h x -> exists l, n_level (get h x) = Some l;
  iv_value : forall x, here h x -> (Q2Qc 0 <= n_value (get h x))%Qc;
  iv_kids : forall x c, here h x -> In c (kids h x) -> here h c;
  iv_pars : forall x p, here h x -> In p (pars h x) -> here h p;
  iv_keep : forall x, old x -> n_value (get h x) = n_value (get h0 x);
  iv_new : forall x, (length h0 <= x < length h)%nat -> n_expands (get h x) = [];
  iv_tags : forall x, old x -> ~ In x seen -> exists extra, n_expands (get h x) = n_expands (get h0 x) ++ extra /\ Forall merge_tag extra;
  iv_q1 : forall x, waiting Q x -> kids h x = kids h0 x;
  iv_q2 : forall x c, waiting Q x -> In c (kids h0 x) -> ~ In c seen /\ pars h c = [x];
  iv_q3 : forall x c y, waiting Q x -> In c (kids h0 x) -> here h y -> In c (kids h y) -> y = x;
  iv_q4 : forall x y, waiting Q x -> here h y -> In x (pars h y) -> In y (kids h0 x)
}.

Lemma old_here h x : (length h0 <= length h)%nat -> old x -> here h x.
Proof. intros L [A B]. split; [exact A|lia]. Qed.

Lemma inv_start : inv (fun _ => True) h0 [].
Proof.
  constructor; auto.
  - intros x B. lia.
  - intros x _ _. exists []. rewrite app_nil_r. split; [reflexivity|constructor].
  - intros x c (O & (t & I & Op) & _) J. split; [intros []|]. apply (Alone0 x t c O I Op J).
  - intros x c y (O & (t & I & Op) & _) J Hy K. pose proof (Alone0 x t c O I Op J) as E. apply (Links0 y c Hy (Kids0 x c O J)) in K. rewrite E in K. destruct K as [K|[]]. symmetry. exact K.
  - intros x y (O & _ & _) Hy I. apply (Links0 x y O Hy). exact I.
Qed.

(** a smaller set of waiting nodes *)
Lemma inv_less (Q Q' : nat -> Prop) h seen : (forall x, Q' x -> Q x) -> inv Q h seen -> inv Q' h seen.
Proof.
  intros S V. assert (W : forall x, waiting Q' x -> waiting Q x) by (intros x (A & B & C); repeat split; try apply A; auto). destruct V. constructor; auto; intros; eauto.
Qed.
(** taking a tag off *)
Lemma inv_pop Q h seen a tags : inv Q h seen -> In a seen -> old a -> inv Q (upd a (set_expands tags) h) seen.
Proof.
  intros V I O. set (h1 := upd a (set_expands tags) h). destruct V.
  assert (B : (a < length h)%nat) by (destruct O; lia).
  assert (G : forall x, n_level (get h1 x) = n_level (get h x) /\ n_value (get h1 x) = n_value (get h x) /\ kids h1 x = kids h x /\ pars h1 x = pars h x /\ (x <> a -> n_expands (get h1 x) = n_expands (get h x))).
  { intros x. unfold h1. destruct (Nat.eq_dec a x) as [<-|N]; [rewrite get_upd_same by exact B|rewrite get_upd_other by exact N]; repeat split; congruence. }
  assert (HE : forall x, here h1 x <-> here h x) by (intros x; unfold here, h1; rewrite upd_length; reflexivity).
  constructor.
  - unfold h1. rewrite upd_length. exact iv_len0.
  - intros x Hx. destruct (G x) as (-> & _). apply iv_level0, HE, Hx.
  - intros x Hx. destruct (G x) as (_ & -> & _). apply iv_value0, HE, Hx.
  - intros x c Hx J. destruct (G x) as (_ & _ & E & _). rewrite E in J. apply HE, (iv_kids0 x); [apply HE, Hx|exact J].
  - intros x c Hx J. destruct (G x) as (_ & _ & _ & E & _). rewrite E in J. apply HE, (iv_pars0 x); [apply HE, Hx|exact J].
  - intros x Ox. destruct (G x) as (_ & -> & _). apply iv_keep0, Ox.
  - intros x Bx. unfold h1 in Bx. rewrite upd_length in Bx. destruct (G x) as (_ & _ & _ & _ & E). rewrite E by (destruct O; lia). apply iv_new0, Bx.
  - intros x Ox Nx. destruct (G x) as (_ & _ & _ & _ & E). rewrite E by (intros ->; contradiction). apply iv_tags0; assumption.
  - intros x W. destruct (G x) as (_ & _ & -> & _). apply iv_q5, W.
  - intros x c W J. destruct (G c) as (_ & _ & _ & -> & _). apply iv_q6; assumption.
  - intros x c y W J Hy K. destruct (G y) as (_ & _ & E & _). rewrite E in K. apply (iv_q7 x c y W J); [apply HE, Hy|exact K].
  - intros x y W Hy K. destruct (G y) as (_ & _ & _ & E & _). rewrite E in K. apply (iv_q8 x y W); [apply HE, Hy|exact K].
Qed.
(** expanding a merge *)
Lemma inv_merge Q h seen a h' : inv Q h seen -> In a seen -> here h a -> mer h a h' -> inv Q h' seen.
Proof.
  intros V I Ha M. pose proof V as V'. destruct V'. pose proof (me_len _ _ _ M) as LL.
  assert (NP : forall x, waiting Q x -> ~ In x (pars h a)).
  { intros x W J. pose proof (iv_q8 x a W Ha J) as K. apply (iv_q6 x a W) in K. tauto. }
  assert (OH : forall x, old x -> (x < length h)%nat) by (intros x [_ B]; lia).
  assert (SP : forall x, here h' x -> here h x \/ fresh h h' x).
  { intros x [Px Bx]. unfold fresh. destruct (Nat.lt_ge_cases x (length h)); [left; split; assumption|right; lia]. }
  assert (HH : forall x, here h x -> here h' x) by (intros x [Px Bx]; split; [exact Px|lia]).
  assert (FH : forall x, fresh h h' x -> here h' x) by (intros x B; unfold fresh in B; split; [apply New; lia|lia]).
  constructor.
  - lia.
  - intros x Hx. destruct (SP x Hx) as [[Px Bx]|F]; [destruct (me_old _ _ _ M x Bx) as (_ & -> & _); apply iv_level0; split; assumption|apply (me_new _ _ _ M x F)].
  - intros x Hx. destruct (SP x Hx) as [[Px Bx]|F]; [destruct (me_old _ _ _ M x Bx) as (-> & _ & _); apply iv_value0; split; assumption|apply (me_new _ _ _ M x F)].
  - intros x c Hx J. destruct (SP x Hx) as [Hx'|F].
    + destruct (me_kids_in _ _ _ M x c (proj2 Hx') J) as [K|K]; [apply HH, (iv_kids0 x c Hx' K)|apply FH, K].
    + destruct (me_new_kids _ _ _ M x c F J) as [->|K]; [apply HH, Ha|apply FH, K].
  - intros x c Hx J. assert (X : (x = a \/ fresh h h' x) \/ (here h x /\ x <> a)) by (destruct (SP x Hx); [destruct (Nat.eq_dec x a); auto|auto]).
    destruct X as [X|[X Ne]]; [|rewrite (me_pars _ _ _ M x (proj2 X) Ne) in J; apply HH, (iv_pars0 x c X J)].
    destruct (me_pars_in _ _ _ M x c X J) as [K|K]; [apply HH, (iv_pars0 a c Ha K)|apply FH, K].
  - intros x Ox. destruct (me_old _ _ _ M x (OH x Ox)) as (-> & _). apply iv_keep0, Ox.
  - intros x Bx. destruct (Nat.lt_ge_cases x (length h)) as [B|B]; [destruct (me_old _ _ _ M x B) as (_ & _ & ->); apply iv_new0; lia|apply (me_new _ _ _ M x); unfold fresh; lia].
  - intros x Ox Nx. destruct (me_old _ _ _ M x (OH x Ox)) as (_ & _ & ->). apply iv_tags0; assumption.
  - intros x W. rewrite (me_kids _ _ _ M x (OH x (proj1 W)) (NP x W)). apply iv_q5, W.
  - intros x c W J. destruct (iv_q6 x c W J) as (N1 & E). split; [exact N1|]. rewrite (me_pars _ _ _ M c); [exact E|apply OH, (Kids0 x c (proj1 W) J)|intros ->; contradiction].
  - intros x c y W J Hy K. destruct (iv_q6 x c W J) as (N1 & _). pose proof (OH c (Kids0 x c (proj1 W) J)) as Bc. destruct (SP y Hy) as [Hy'|F].
    + destruct (me_kids_in _ _ _ M y c (proj2 Hy') K) as [K'|K']; [apply (iv_q7 x c y W J Hy' K')|unfold fresh in K'; lia].
    + destruct (me_new_kids _ _ _ M y c F K) as [->|K']; [contradiction|unfold fresh in K'; lia].
  - intros x y W Hy K. pose proof (OH x (proj1 W)) as Bx. assert (X : (y = a \/ fresh h h' y) \/ (here h y /\ y <> a)) by (destruct (SP y Hy); [destruct (Nat.eq_dec y a); auto|auto]).
    destruct X as [X|[X Ne]]; [|rewrite (me_pars _ _ _ M y (proj2 X) Ne) in K; apply (iv_q8 x y W X K)].
    exfalso. destruct (me_pars_in _ _ _ M y x X K) as [K'|K']; [apply (NP x W K')|unfold fresh in K'; lia].
Qed.
(** expanding an operation of [a] *)
Lemma inv_local Q h seen a h' : inv Q h seen -> In a seen -> waiting Q a -> loc h a (kids h a) h' -> inv (fun x => Q x /\ x <> a) h' seen.
Proof.
  intros V I Wa M. pose proof V as V'. destruct V'. pose proof (lo_len _ _ _ _ M) as LL. pose proof (iv_q5 a Wa) as Ka. rewrite Ka in M.
  assert (Oa : old a) by apply Wa. assert (OH : forall x, old x -> (x < length h)%nat) by (intros x [_ B]; lia).
  assert (Ba : (a < length h)%nat) by (apply OH, Oa).
  assert (Ha : here h a) by (split; [apply Oa|exact Ba]).
  assert (SP : forall x, here h' x -> here h x \/ (length h <= x < length h')%nat).
  { intros x [Px Bx]. destruct (Nat.lt_ge_cases x (length h)); [left; split; assumption|right; lia]. }
  assert (HH : forall x, here h x -> here h' x) by (intros x [Px Bx]; split; [exact Px|lia]).
  assert (FH : forall x, (length h <= x < length h')%nat -> here h' x) by (intros x B; split; [apply New; lia|lia]).
  assert (IH : forall x, inner h a h' x -> here h' x) by (intros x [->|B]; [apply HH, Ha|apply FH, B]).
  assert (CH : forall x, In x (kids h0 a) -> here h x) by (intros x J; apply old_here; [exact iv_len0|apply (Kids0 a x Oa J)]).
  assert (AH : forall x, area h a (kids h0 a) h' x -> here h' x) by (intros x [J|J]; [apply IH, J|apply HH, CH, J]).
  assert (W' : forall x, waiting (fun x => Q x /\ x <> a) x -> waiting Q x /\ x <> a) by (intros x (A & B & C & D); repeat split; try apply A; auto).
  constructor.
  - lia.
  - intros x Hx. destruct (SP x Hx) as [[Px Bx]|F]; [destruct (lo_old _ _ _ _ M x Bx) as (_ & ->); apply iv_level0; split; assumption|apply (lo_new _ _ _ _ M x F)].
  - intros x Hx. destruct (SP x Hx) as [[Px Bx]|F]; [destruct (lo_old _ _ _ _ M x Bx) as (-> & _); apply iv_value0; split; assumption|apply (lo_new _ _ _ _ M x F)].
  - intros x c Hx J. assert (X : inner h a h' x \/ (here h x /\ x <> a)) by (unfold inner; destruct (SP x Hx); [destruct (Nat.eq_dec x a); auto|auto]).
    destruct X as [X|[X Ne]]; [apply AH, (lo_kids_in _ _ _ _ M x c X J)|]. rewrite (lo_kids _ _ _ _ M x (proj2 X) Ne) in J. apply HH, (iv_kids0 x c X J).
  - intros x c Hx J. assert (X : area h a (kids h0 a) h' x \/ (here h x /\ x <> a /\ ~ In x (kids h0 a))).
    { unfold area, inner. destruct (SP x Hx); [destruct (Nat.eq_dec x a); [auto|]; destruct (in_dec Nat.eq_dec x (kids h0 a)); auto|auto]. }
    destruct X as [X|(X & Ne & Nk)]; [|rewrite (lo_pars _ _ _ _ M x (proj2 X) Ne Nk) in J; apply HH, (iv_pars0 x c X J)].
    destruct (lo_pars_in _ _ _ _ M x c X J) as [K|[_ K]]; [apply IH, K|apply HH, (iv_pars0 a c Ha K)].
  - intros x Ox. destruct (lo_old _ _ _ _ M x (OH x Ox)) as (-> & _). apply iv_keep0, Ox.
  - intros x Bx. destruct (Nat.lt_ge_cases x (length h)) as [B|B]; [|apply (lo_new _ _ _ _ M x); lia].
    rewrite (lo_far _ _ _ _ M x B); [apply iv_new0; lia|intros ->; destruct Oa; lia|intros J; apply (Kids0 a x Oa) in J; destruct J; lia].
  - intros x Ox Nx. destruct (iv_tags0 x Ox Nx) as (e & E & F). destruct (lo_tags _ _ _ _ M x (OH x Ox)) as (e' & E' & F'). exists (e ++ e'). rewrite E', E, app_assoc. split; [reflexivity|apply Forall_app; auto].
  - intros x W. destruct (W' x W) as (Wx & Ne). rewrite (lo_kids _ _ _ _ M x (OH x (proj1 Wx)) Ne). apply iv_q5, Wx.
  - intros x c W J. destruct (W' x W) as (Wx & Ne). destruct (iv_q6 x c Wx J) as (N1 & E). split; [exact N1|]. rewrite (lo_pars _ _ _ _ M c); [exact E|apply OH, (Kids0 x c (proj1 Wx) J)|intros ->; contradiction|].
    intros J'. destruct (iv_q6 a c Wa J') as (_ & E'). rewrite E in E'. injection E' as E'. contradiction.
  - intros x c y W J Hy K. destruct (W' x W) as (Wx & Ne). destruct (iv_q6 x c Wx J) as (N1 & E1). pose proof (OH c (Kids0 x c (proj1 Wx) J)) as Bc.
    assert (X : inner h a h' y \/ (here h y /\ y <> a)) by (unfold inner; destruct (SP y Hy); [destruct (Nat.eq_dec y a); auto|auto]).
    destruct X as [X|[X Nya]]; [|rewrite (lo_kids _ _ _ _ M y (proj2 X) Nya) in K; apply (iv_q7 x c y Wx J X K)].
    exfalso. destruct (lo_kids_in _ _ _ _ M y c X K) as [[->|K']|K']; [contradiction|lia|]. destruct (iv_q6 a c Wa K') as (_ & E'). rewrite E1 in E'. injection E' as E'. contradiction.
  - intros x y W Hy K. destruct (W' x W) as (Wx & Ne). pose proof (OH x (proj1 Wx)) as Bx.
    assert (X : area h a (kids h0 a) h' y \/ (here h y /\ y <> a /\ ~ In y (kids h0 a))).
    { unfold area, inner. destruct (SP y Hy); [destruct (Nat.eq_dec y a); [auto|]; destruct (in_dec Nat.eq_dec y (kids h0 a)); auto|auto]. }
    destruct X as [X|(X & Nya & Nk)]; [|rewrite (lo_pars _ _ _ _ M y (proj2 X) Nya Nk) in K; apply (iv_q8 x y Wx X K)].
    destruct (lo_pars_in _ _ _ _ M y x X K) as [[K'|K']|[-> K']]; [contradiction|lia|apply (iv_q8 x a Wx Ha K')].
Qed.

(** ** The tags of one node *)
Lemma one_op l : (length (filter is_op l) <= 1)%nat -> Forall (fun t => is_op t = false) l \/
  exists pre t post, l = pre ++ t :: post /\ is_op t = true /\ Forall (fun t => is_op t = false) pre /\ Forall (fun t => is_op t = false) post.
Proof.
  clear. induction l as [|t l IH]; intros L; [left; constructor|]. cbn in L. destruct (is_op t) eqn:E.
  - right. exists [], t, l. split; [reflexivity|]. split; [exact E|]. split; [constructor|]. cbn in L. clear IH. induction l as [|u l IHl]; [constructor|]. cbn in L. destruct (is_op u) eqn:Eu; [cbn in L; lia|]. constructor; [exact Eu|apply IHl, L].
  - destruct (IH L) as [F|(pre & u & post & -> & Eu & F1 & F2)]; [left; constructor; assumption|]. right. exists (t :: pre), u, post. repeat split; auto.
Qed.
Lemma op_step Q h seen a t : inv Q h seen -> In a seen -> waiting Q a -> In t (n_expands (get h0 a)) -> is_op t = true ->
  exists h' u, expand_tag h a t = Ok (h', u) /\ loc h a (kids h a) h'.
Proof.
  intros V I W It Op. assert (Oa : old a) by apply W. pose proof (iv_len _ _ _ V) as LL. assert (Ba : (a < length h)%nat) by (destruct Oa; lia).
  assert (Ha : here h a) by (split; [apply Oa|exact Ba]).
  destruct (iv_level _ _ _ V a Ha) as (lvl & El). pose proof (iv_value _ _ _ V a Ha) as Va. pose proof (iv_q1 _ _ _ V a W) as Ka. pose proof (iv_keep _ _ _ V a Oa) as Ea.
  assert (KP : forall c, In c (kids h a) -> (c < length h)%nat /\ pars h c = [a]).
  { intros c J. rewrite Ka in J. destruct (iv_q2 _ _ _ V a c W J) as (_ & E). destruct (Kids0 a c Oa J). split; [lia|exact E]. }
  assert (Na : ~ In a (kids h a)) by (rewrite Ka; intros J; destruct (iv_q2 _ _ _ V a a W J); contradiction).
  pose proof (Tags0 a t Oa It) as R. destruct t as [c|d|k|c]; try discriminate Op; cbn [expand_tag op_ready] in *.
  - destruct R as (v & ext & ovf & Ev & Hv & Hc & Ne & Kx & Vx & Vo & Lim).
    assert (Ox : In ext (kids h0 a) /\ In ovf (kids h0 a)) by (destruct Kx as [->|[-> _]]; cbn; auto). destruct Ox as [Ox Oo].
    apply (extract_safe h a v c lvl ext ovf); try assumption.
    + constructor; try assumption.
      * rewrite Ea. exact Ev.
      * rewrite Ka. exact Kx.
      * rewrite (iv_keep _ _ _ V); [exact Vx|apply (Kids0 a ext Oa Ox)].
      * rewrite (iv_keep _ _ _ V); [exact Vo|apply (Kids0 a ovf Oa Oo)].
      * rewrite Ka in Na. split; [exact Ne|]. split; intros ->; contradiction.
      * rewrite Ka in KP. split; apply KP; assumption.
    + apply KP. rewrite Ka. exact Ox.
    + apply KP. rewrite Ka. exact Oo.
  - destruct R as (Hd & Nd & Cn & Lim). apply (divide_safe h a d lvl); try assumption.
    + constructor; try assumption; try (rewrite Ka; assumption). intros c J. apply KP, J.
    + intros c J. apply KP, J.
    + rewrite Ea. exact Lim.
  - apply (split_safe h a c lvl); assumption.
Qed.
Lemma merge_step Q h seen a k : inv Q h seen -> In a seen -> here h a -> 2 <= k -> exists h' u, expand_tag h a (TMerge k) = Ok (h', u) /\ mer h a h'.
Proof.
  intros V I Ha Hk. cbn [expand_tag]. apply merge_safe; [apply Ha|apply (iv_level _ _ _ V a Ha)| |exact Hk].
  intros p J. pose proof (iv_pars _ _ _ V a p Ha J) as Hp. split; [apply Hp|]. split; [apply (iv_level _ _ _ V p Hp)|apply (iv_value _ _ _ V p Hp)].
Qed.
Lemma expand_tags_cons n h a us t rest : n_expands (get h a) = t :: rest -> expand_tags (S n) h a us = do (h, u) <- expand_tag (upd a (set_expands rest) h) a t; expand_tags n h a (us ++ [u]).
Proof. clear. intros E. cbn [expand_tags]. rewrite E. reflexivity. Qed.
Lemma popped (h : heap Qc) a ts : (a < length h)%nat -> n_expands (get (upd a (set_expands ts) h) a) = ts.
Proof. clear. intros B. rewrite get_upd_same by exact B. reflexivity. Qed.

(** merges in front of the other tags *)
Lemma merges_first Q seen a : In a seen -> old a -> forall ts h us rest, Forall merge_tag ts -> n_expands (get h a) = ts ++ rest -> inv Q h seen ->
  exists h' us' N, (forall n, expand_tags (N + n) h a us = expand_tags n h' a us') /\ inv Q h' seen /\ n_expands (get h' a) = rest /\ (length h <= length h')%nat.
Proof.
  intros I Oa. induction ts as [|t ts IH]; intros h us rest F E V; [exists h, us, O; auto|]. inversion F as [|? ? (k & -> & Hk) F']; subst. cbn [app] in E.
  pose proof (iv_len _ _ _ V) as LL. assert (Ba : (a < length h)%nat) by (destruct Oa; lia).
  set (h1 := upd a (set_expands (ts ++ rest)) h). assert (V1 : inv Q h1 seen) by (apply inv_pop; assumption).
  assert (B1 : (a < length h1)%nat) by (unfold h1; rewrite upd_length; exact Ba). assert (H1 : here h1 a) by (split; [apply Oa|exact B1]).
  destruct (merge_step Q h1 seen a k V1 I H1 Hk) as (h2 & u & E2 & M). pose proof (inv_merge Q h1 seen a h2 V1 I H1 M) as V2.
  destruct (IH h2 (us ++ [u]) rest F') as (h3 & us3 & N & E3 & V3 & X3 & L3); [|exact V2|].
  - destruct (me_old _ _ _ M a B1) as (_ & _ & ->). apply popped, Ba.
  - pose proof (me_len _ _ _ M) as LM. unfold h1 in LM. rewrite upd_length in LM. exists h3, us3, (S N). split; [|split; [exact V3|split; [exact X3|lia]]]. intros n. change (S N + n)%nat with (S (N + n)). rewrite (expand_tags_cons _ _ _ _ _ _ E). fold h1. rewrite E2. cbn [bind]. apply E3.
Qed.
Lemma not_op_merge a l : old a -> incl l (n_expands (get h0 a)) -> Forall (fun t => is_op t = false) l -> Forall merge_tag l.
Proof.
  intros Oa J F. rewrite Forall_forall in F |- *. intros t I. specialize (F t I). pose proof (Tags0 a t Oa (J t I)) as R. destruct t as [c|d|k|c]; try discriminate F. exists k. auto.
Qed.
Lemma finish_tags Q seen a h us : In a seen -> old a -> Forall merge_tag (n_expands (get h a)) -> inv Q h seen ->
  exists h' us' N, (forall n, (N <= n)%nat -> expand_tags n h a us = Ok (h', us')) /\ inv Q h' seen /\ (length h <= length h')%nat.
Proof.
  intros I Oa F V. destruct (merges_first Q seen a I Oa (n_expands (get h a)) h us [] F ltac:(rewrite app_nil_r; reflexivity) V) as (h' & us' & N & E & V' & X & L).
  exists h', us', (N + 0)%nat. split; [|split; [exact V'|exact L]]. intros n Hn. replace n with (N + (n - N))%nat by lia. rewrite E. destruct (n - N)%nat; cbn [expand_tags]; rewrite X; reflexivity.
Qed.
Lemma tags_safe h seen a : inv (fun x => ~ In x seen) h seen -> ~ In a seen -> old a -> (forall x, waiting (fun x => ~ In x seen) x -> ~ In a (kids h0 x)) ->
  exists h' us N, (forall n, (N <= n)%nat -> expand_tags n h a [] = Ok (h', us)) /\ inv (fun x => ~ In x (a :: seen)) h' (a :: seen) /\ (length h <= length h')%nat.
Proof.
  intros V Na Oa Pre.
  assert (V1 : inv (fun x => ~ In x seen) h (a :: seen)).
  { destruct V. constructor; auto.
    - intros x Ox Nx. apply iv_tags0; [exact Ox|]. intros J. apply Nx. right. exact J.
    - intros x c W J. destruct (iv_q6 x c W J) as (A & B). split; [|exact B]. intros [->|K]; [apply (Pre x W J)|contradiction]. }
  assert (Less : forall h', inv (fun x => ~ In x seen /\ x <> a) h' (a :: seen) -> inv (fun x => ~ In x (a :: seen)) h' (a :: seen)).
  { intros h'. apply inv_less. intros x N. split; [intros J; apply N; right; exact J|intros ->; apply N; left; reflexivity]. }
  assert (Ia : In a (a :: seen)) by (left; reflexivity).
  destruct (iv_tags _ _ _ V a Oa Na) as (extra & E & F). destruct (one_op _ (One0 a Oa)) as [M|(pre & t & post & E0 & Op & F1 & F2)].
  - apply (not_op_merge a) in M; [|exact Oa|apply incl_refl]. assert (FF : Forall merge_tag (n_expands (get h a))) by (rewrite E; apply Forall_app; auto). destruct (finish_tags _ _ a h [] Ia Oa FF V1) as (h' & us & N & EN & V' & LE).
    exists h', us, N. split; [exact EN|]. split; [|exact LE]. apply Less. revert V'. apply inv_less. tauto.
  - assert (It : In t (n_expands (get h0 a))) by (rewrite E0; apply in_app_iff; right; left; reflexivity).
    apply (not_op_merge a) in F1; [|exact Oa|rewrite E0; intros x J; apply in_app_iff; left; exact J].
    apply (not_op_merge a) in F2; [|exact Oa|rewrite E0; intros x J; apply in_app_iff; right; right; exact J].
    rewrite E0 in E. rewrite <- app_assoc in E. cbn [app] in E.
    destruct (merges_first _ _ a Ia Oa pre h [] _ F1 E V1) as (h1 & us1 & N1 & E1 & V2 & X1 & LE1).
    pose proof (iv_len _ _ _ V2) as LL. assert (Ba : (a < length h1)%nat) by (destruct Oa; lia).
    set (h2 := upd a (set_expands (post ++ extra)) h1). assert (V3 : inv (fun x => ~ In x seen) h2 (a :: seen)) by (apply inv_pop; assumption).
    assert (W : waiting (fun x => ~ In x seen) a) by (split; [exact Oa|split; [exists t; auto|exact Na]]).
    destruct (op_step _ h2 (a :: seen) a t V3 Ia W It Op) as (h3 & u & E3 & L3).
    pose proof (inv_local _ h2 (a :: seen) a h3 V3 Ia W L3) as V4.
    destruct (lo_tags _ _ _ _ L3 a) as (ex & Ex & Fx); [unfold h2; rewrite upd_length; exact Ba|]. unfold h2 in Ex. rewrite popped in Ex by exact Ba.
    assert (FF : Forall merge_tag (n_expands (get h3 a))) by (rewrite Ex; repeat (apply Forall_app; split); assumption).
    destruct (finish_tags _ _ a h3 (us1 ++ [u]) Ia Oa FF V4) as (h4 & us4 & N4 & E4 & V5 & LE4).
    exists h4, us4, (N1 + S N4)%nat. split; [|split; [apply Less, V5|pose proof (lo_len _ _ _ _ L3) as LL3; unfold h2 in LL3; rewrite upd_length in LL3; lia]].
    intros n Hn. replace n with (N1 + (S (n - N1 - 1)))%nat by lia. rewrite E1, (expand_tags_cons _ _ _ _ _ _ X1). fold h2. rewrite E3. cbn [bind]. apply E4. lia.
Qed.

(** ** The traversal *)
Definition iterate (rec : heap Qc -> list nat -> nat -> res (heap Qc * list nat * list (Z * Z))) (a : nat) :=
  fix iterate (k : nat) (i : nat) (h : heap Qc) (seen : list nat) (updates : list (Z * Z)) : res (heap Qc * list nat * list (Z * Z)) :=
    match nth_error (n_children (get h a)) i with
    | None => Ok (h, seen, updates)
    | Some c =>
      match k with
      | O => Err OutOfFuel
      | S k =>
        if nat_in c seen then iterate k (S i) h seen updates else
        do (h, seen, us) <- rec h seen c;
        iterate k (S i) h seen (updates ++ us)
      end
    end.
Lemma expand_node_S n h seen a : expand_node (S n) h seen a =
  if nat_in a seen then Ok (h, seen, []) else do (h, us) <- expand_tags n h a []; iterate (expand_node n) a n 0 h (a :: seen) us.
Proof. reflexivity. Qed.
Lemma iterate_eq rec a k i h seen us : iterate rec a k i h seen us =
  match nth_error (n_children (get h a)) i with
  | None => Ok (h, seen, us)
  | Some c => match k with O => Err OutOfFuel | S k => if nat_in c seen then iterate rec a k (S i) h seen us else do (h, seen, us') <- rec h seen c; iterate rec a k (S i) h seen (us ++ us') end
  end.
Proof. destruct k; reflexivity. Qed.

Definition unseen (L : nat) (seen : list nat) : nat := length (filter (fun y => negb (nat_in y seen)) (seq 0 L)).
Lemma filter_le {A} (f g : A -> bool) l : (forall x, In x l -> f x = true -> g x = true) -> (length (filter f l) <= length (filter g l))%nat.
Proof. clear. induction l as [|x l IH]; intros H; [reflexivity|]. cbn. pose proof (H x (or_introl eq_refl)). assert (IH' := IH (fun y I => H y (or_intror I))). destruct (f x), (g x); cbn; try lia. Qed.
Lemma filter_lt {A} (f g : A -> bool) l a : (forall x, In x l -> f x = true -> g x = true) -> In a l -> f a = false -> g a = true -> (length (filter f l) < length (filter g l))%nat.
Proof.
  clear. induction l as [|x l IH]; intros H I Fa Ga; [destruct I|]. cbn. pose proof (H x (or_introl eq_refl)) as Hx. assert (H' := fun y I => H y (or_intror I)). destruct I as [->|I].
  - rewrite Fa, Ga. cbn. pose proof (filter_le f g l H'). lia.
  - pose proof (IH H' I Fa Ga). destruct (f x), (g x); cbn; try lia.
Qed.
Lemma unseen_incl seen seen' x : incl seen seen' -> negb (nat_in x seen') = true -> negb (nat_in x seen) = true.
Proof. clear. intros I N. apply negb_true_iff in N. apply negb_true_iff. destruct (nat_in x seen) eqn:E; [|reflexivity]. apply nat_in_true, I, nat_in_true in E. congruence. Qed.
Lemma unseen_le L seen seen' : incl seen seen' -> (unseen L seen' <= unseen L seen)%nat.
Proof. clear. intros I. apply filter_le. intros x _. apply unseen_incl, I. Qed.
Lemma unseen_lt L seen seen' a : incl seen seen' -> In a seen' -> ~ In a seen -> (a < L)%nat -> (unseen L seen' < unseen L seen)%nat.
Proof.
  clear. intros I J N B. apply (filter_lt _ _ _ a); [intros x _; apply unseen_incl, I|apply in_seq; lia| |].
  - apply negb_false_iff, nat_in_true, J.
  - apply negb_true_iff. destruct (nat_in a seen) eqn:E; [apply nat_in_true in E; contradiction|reflexivity].
Qed.

Definition lt2 (x y : nat * nat) : Prop := (fst x < fst y)%nat \/ (fst x = fst y /\ (snd x < snd y)%nat).
Lemma lt2_wf : well_founded lt2.
Proof.
  clear. assert (X : forall n m, Acc lt2 (n, m)).
  { induction n as [n IHn] using lt_wf_ind. induction m as [m IHm] using lt_wf_ind. constructor. intros [n' m'] [L|[E L]]; cbn [fst snd] in *; [apply IHn, L|subst; apply IHm, L]. }
  intros [n m]. apply X.
Qed.
Definition mu (h : heap Qc) (seen : list nat) : nat * nat := (unseen (length h0) seen, unseen (length h) seen).
Lemma lt2_trans x y z : lt2 x y -> lt2 y z -> lt2 x z.
Proof. unfold lt2. clear. lia. Qed.

Definition unseen_waiting (seen : list nat) : nat -> Prop := waiting (fun x => ~ In x seen).
Section Walk.
(** an invariant of the walk that includes [inv] *)
Variable Vis : heap Qc -> list nat -> Prop.
Hypothesis VI : forall h seen, Vis h seen -> inv (fun x => ~ In x seen) h seen.
Hypothesis VO : forall h seen a, Vis h seen -> ~ In a seen -> old a -> (forall x, unseen_waiting seen x -> ~ In a (kids h0 x)) ->
  exists h' us N, (forall n, (N <= n)%nat -> expand_tags n h a [] = Ok (h', us)) /\ Vis h' (a :: seen) /\ (length h <= length h')%nat.
Hypothesis VN : forall h seen a, Vis h seen -> ~ In a seen -> here h a -> (length h0 <= a)%nat -> Vis h (a :: seen).
(** one visit: what it gives for all fuel from some point on *)
Definition visited (h : heap Qc) (seen : list nat) (h' : heap Qc) (seen' : list nat) : Prop :=
  Vis h' seen' /\ incl seen seen' /\ (length h <= length h')%nat /\ ((unseen (length h0) seen' < unseen (length h0) seen)%nat \/ h' = h).
Definition visits (h : heap Qc) (seen : list nat) (a : nat) : Prop :=
  Vis h seen -> here h a -> (forall x, unseen_waiting seen x -> ~ In a (kids h0 x)) ->
  exists h' seen' us N, (forall n, (N <= n)%nat -> expand_node n h seen a = Ok (h', seen', us)) /\ visited h seen h' seen' /\ In a seen'.

Lemma visited_trans h s h1 s1 h2 s2 : visited h s h1 s1 -> visited h1 s1 h2 s2 -> visited h s h2 s2.
Proof.
  intros (V1 & I1 & L1 & D1) (V2 & I2 & L2 & D2). split; [exact V2|]. split; [intros x J; apply I2, I1, J|]. split; [lia|].
  pose proof (unseen_le (length h0) _ _ I1). pose proof (unseen_le (length h0) _ _ I2). destruct D1 as [D1| ->]; [left; lia|]. destruct D2 as [D2| ->]; [left; lia|auto].
Qed.
Lemma visited_smaller h s h1 s1 c : visited h s h1 s1 -> In c s1 -> ~ In c s -> (c < length h)%nat -> lt2 (mu h1 s1) (mu h s).
Proof.
  intros (_ & I & _ & D) J N B. unfold lt2, mu. cbn [fst snd]. destruct D as [D| ->]; [auto|]. pose proof (unseen_le (length h0) _ _ I). pose proof (unseen_lt (length h) _ _ c I J N B). lia.
Qed.

Lemma iterate_safe a : forall w, forall h seen, mu h seen = w -> (forall h' seen' c, mu h' seen' = w \/ lt2 (mu h' seen') w -> visits h' seen' c) ->
  Vis h seen -> In a seen -> here h a -> forall i us,
  exists h' seen' us' N, (forall n k, (N <= n)%nat -> (N <= k)%nat -> iterate (expand_node n) a k i h seen us = Ok (h', seen', us')) /\ visited h seen h' seen'.
Proof.
  induction w as [w IHw] using (well_founded_ind lt2_wf). intros h seen Ew Rec U Ia Ha. pose proof (VI _ _ U) as V.
  assert (X : forall j i us, (length (kids h a) - i <= j)%nat -> exists h' seen' us' N, (forall n k, (N <= n)%nat -> (N <= k)%nat -> iterate (expand_node n) a k i h seen us = Ok (h', seen', us')) /\ visited h seen h' seen').
  2: { intros i us. apply (X (length (kids h a) - i)%nat). lia. }
  assert (Done : forall i us, nth_error (kids h a) i = None -> exists h' seen' us' N, (forall n k, (N <= n)%nat -> (N <= k)%nat -> iterate (expand_node n) a k i h seen us = Ok (h', seen', us')) /\ visited h seen h' seen').
  { intros i us E. exists h, seen, us, O. split; [intros n k _ _; rewrite iterate_eq, E; reflexivity|]. split; [exact U|]. split; [apply incl_refl|]. auto. }
  induction j as [|j IHj]; intros i us Lj.
  { apply Done, nth_error_None. lia. }
  destruct (nth_error (kids h a) i) as [c|] eqn:E; [|apply Done, E].
  assert (Bi : (i < length (kids h a))%nat) by (apply nth_error_Some; congruence).
  destruct (nat_in c seen) eqn:Ec.
  - destruct (IHj (S i) us) as (h' & s' & us' & N & EN & R); [lia|]. exists h', s', us', (S N). split; [|exact R].
    intros n k Hn Hk. rewrite iterate_eq, E. destruct k as [|k]; [lia|]. rewrite Ec. apply EN; lia.
  - assert (Nc : ~ In c seen) by (intros J; apply nat_in_true in J; congruence). assert (Ic : In c (kids h a)) by (eapply nth_error_In, E).
    destruct (Rec h seen c (or_introl Ew) U (iv_kids _ _ _ V a c Ha Ic)) as (h1 & s1 & us1 & N1 & E1 & R1 & J1).
    { intros x W J. pose proof (iv_q3 _ _ _ V x c a W J Ha Ic) as Eax. subst x. destruct W as (_ & _ & W). contradiction. }
    pose proof (visited_smaller _ _ _ _ c R1 J1 Nc (proj2 (iv_kids _ _ _ V a c Ha Ic))) as Lt. rewrite Ew in Lt.
    destruct (IHw _ Lt h1 s1 eq_refl) with (i := S i) (us := us ++ us1) as (h2 & s2 & us2 & N2 & E2 & R2).
    + intros h' s' c' D. apply Rec. right. destruct D as [-> |D]; [exact Lt|]. apply (lt2_trans _ _ _ D Lt).
    + apply R1.
    + apply R1, Ia.
    + destruct R1 as (_ & _ & L1 & _). split; [apply Ha|]. destruct Ha. lia.
    + exists h2, s2, us2, (S (Nat.max N1 N2)). split; [|apply (visited_trans _ _ _ _ _ _ R1 R2)].
      intros n k Hn Hk. rewrite iterate_eq, E. destruct k as [|k]; [lia|]. rewrite Ec, E1 by lia. cbn [bind]. apply E2; lia.
Qed.

Lemma node_safe : forall w h seen a, mu h seen = w -> visits h seen a.
Proof.
  induction w as [w IHw] using (well_founded_ind lt2_wf). intros h seen a Ew U Ha Pre. pose proof (VI _ _ U) as V. subst w.
  destruct (nat_in a seen) eqn:Ea.
  { exists h, seen, [], 1%nat. split; [intros n Hn; destruct n as [|n]; [lia|]; rewrite expand_node_S, Ea; reflexivity|]. split; [|apply nat_in_true, Ea]. split; [exact U|]. split; [apply incl_refl|auto]. }
  assert (Na : ~ In a seen) by (intros J; apply nat_in_true in J; congruence).
  assert (T : exists h1 us1 N1, (forall n, (N1 <= n)%nat -> expand_tags n h a [] = Ok (h1, us1)) /\ visited h seen h1 (a :: seen)).
  { destruct (Nat.lt_ge_cases a (length h0)) as [B|B].
    - assert (Oa : old a) by (split; [apply Ha|exact B]). destruct (VO h seen a U Na Oa Pre) as (h1 & us1 & N1 & E1 & V1 & LE). exists h1, us1, N1. split; [exact E1|]. split; [exact V1|]. split; [apply incl_tl, incl_refl|].
      assert (LT : (unseen (length h0) (a :: seen) < unseen (length h0) seen)%nat) by (apply (unseen_lt _ _ _ a); [apply incl_tl, incl_refl|left; reflexivity|exact Na|exact B]).
      split; [exact LE|left; exact LT].
    - exists h, [], O. split; [intros n _; destruct n; cbn [expand_tags]; rewrite (iv_new _ _ _ V a) by (destruct Ha; lia); reflexivity|]. split; [|split; [apply incl_tl, incl_refl|auto]].
      apply VN; assumption. }
  destruct T as (h1 & us1 & N1 & E1 & R1).
  pose proof (visited_smaller _ _ _ _ a R1 (or_introl eq_refl) Na (proj2 Ha)) as Lt.
  destruct (iterate_safe a (mu h1 (a :: seen)) h1 (a :: seen) eq_refl) with (i := O) (us := us1) as (h2 & s2 & us2 & N2 & E2 & R2).
  - intros h' s' c D. apply (IHw (mu h' s')); [|reflexivity]. destruct D as [->|D]; [exact Lt|apply (lt2_trans _ _ _ D Lt)].
  - apply R1.
  - left. reflexivity.
  - destruct R1 as (_ & _ & L1 & _). split; [apply Ha|]. destruct Ha. lia.
  - exists h2, s2, us2, (S (Nat.max N1 N2)). split; [|split; [apply (visited_trans _ _ _ _ _ _ R1 R2)|apply R2; left; reflexivity]].
    intros n Hn. destruct n as [|n]; [lia|]. rewrite expand_node_S, Ea, E1 by lia. cbn [bind]. apply E2; lia.
Qed.

Lemma all_safe : forall roots h seen us, Vis h seen -> (forall r, In r roots -> old r /\ pars h0 r = []) ->
  exists h' us' N, (forall n, (N <= n)%nat -> expand_all n h seen roots us = Ok (h', us')) /\ exists seen', Vis h' seen'.
Proof.
  induction roots as [|r roots IH]; intros h seen us V R; [exists h, us, O; split; [reflexivity|exists seen; exact V]|].
  destruct (R r (or_introl eq_refl)) as (Or & Pr). destruct (node_safe (mu h seen) h seen r eq_refl V) as (h1 & s1 & us1 & N1 & E1 & R1 & _).
  - apply old_here; [apply (iv_len _ _ _ (VI _ _ V))|exact Or].
  - intros x (Ox & _) J. apply (Links0 x r Ox Or) in J. rewrite Pr in J. destruct J.
  - destruct (IH h1 s1 (us ++ us1)) as (h2 & us2 & N2 & E2 & R2); [apply R1|intros q I; apply R; right; exact I|].
    exists h2, us2, (Nat.max N1 N2). split; [|exact R2]. intros n Hn. cbn [expand_all]. rewrite E1 by lia. cbn [bind]. apply E2. lia.
Qed.

(** ** The other traversals *)
Definition plain (h : heap Qc) : Prop := forall x, here h x -> (exists l, n_level (get h x) = Some l) /\ forall c, In c (kids h x) -> here h c.
(** everything but levels stays *)
Definition alike (h h' : heap Qc) : Prop := length h' = length h /\ forall x, kids h' x = kids h x /\ pars h' x = pars h x /\ n_value (get h' x) = n_value (get h x) /\ n_expands (get h' x) = n_expands (get h x).
Lemma alike_refl h : alike h h.
Proof. split; auto. Qed.
Lemma alike_trans h1 h2 h3 : alike h1 h2 -> alike h2 h3 -> alike h1 h3.
Proof. intros (L1 & A1) (L2 & A2). split; [congruence|]. intros x. destruct (A1 x) as (<- & <- & <- & <-). apply A2. Qed.
Definition steady {S} (f : heap Qc -> nat -> S -> res (heap Qc * S)) : Prop := forall h a s, plain h -> here h a ->
  exists h' s', f h a s = Ok (h', s') /\ plain h' /\ alike h h'.
Lemma here_len h h' x : length h' = length h -> here h x -> here h' x.
Proof. unfold here. intros ->. auto. Qed.
Lemma visit_safe {S} (f : heap Qc -> nat -> S -> res (heap Qc * S)) : steady f ->
  forall fuel h seen s a, plain h -> here h a -> (unseen (length h) seen < fuel)%nat ->
  exists h' seen' s', visit fuel f h seen s a = Ok (h', seen', s') /\ plain h' /\ alike h h' /\ incl seen seen'.
Proof.
  intros St. induction fuel as [|fuel IH]; intros h seen s a Pl Ha L; [lia|]. cbn [visit]. destruct (nat_in a seen) eqn:Ea.
  { exists h, seen, s. split; [reflexivity|]. split; [exact Pl|]. split; [apply alike_refl|apply incl_refl]. }
  assert (Na : ~ In a seen) by (intros J; apply nat_in_true in J; congruence).
  destruct (St h a s Pl Ha) as (h1 & s1 & E1 & P1 & A1). pose proof (proj1 A1) as L1. rewrite E1. cbn [bind].
  assert (U : (unseen (length h) (a :: seen) < fuel)%nat).
  { pose proof (unseen_lt (length h) seen (a :: seen) a (incl_tl _ (incl_refl _)) (or_introl eq_refl) Na (proj2 Ha)). lia. }
  assert (X : forall l g sn s2, plain g -> alike h g -> incl (a :: seen) sn -> (forall c, In c l -> here h c) ->
    exists h' seen' s', fold_res (fun st c => let '(h, seen, s) := st in if nat_in c seen then Ok st else visit fuel f h seen s c) l (g, sn, s2) = Ok (h', seen', s') /\ plain h' /\ alike h h' /\ incl (a :: seen) seen').
  { induction l as [|c l IHl]; intros g sn s2 Pg Ag Ig C; [exists g, sn, s2; auto|]. pose proof (proj1 Ag) as Lg. cbn [fold_res]. destruct (nat_in c sn); cbn [bind].
    - apply IHl; try assumption. intros c' I'. apply C. right. exact I'.
    - destruct (IH g sn s2 c) as (g1 & sn1 & s3 & E & Pg1 & Lg1 & Ig1); [exact Pg|apply (here_len h); [exact Lg|apply C; left; reflexivity]|rewrite Lg; pose proof (unseen_le (length h) _ _ Ig); lia|].
      rewrite E. cbn [bind]. apply IHl; [exact Pg1|apply (alike_trans _ _ _ Ag Lg1)|intros y J; apply Ig1, Ig, J|]. intros c' I'. apply C. right. exact I'. }
  destruct (X (kids h1 a) h1 (a :: seen) s1 P1 A1 (incl_refl _)) as (h' & sn' & s' & E & P' & L' & I').
  - intros c J. apply (here_len h1); [symmetry; exact L1|]. apply (P1 a (here_len h h1 a L1 Ha)), J.
  - exists h', sn', s'. split; [exact E|]. split; [exact P'|]. split; [exact L'|]. intros y J. apply I'. right. exact J.
Qed.
Lemma visit_all_safe {S} (f : heap Qc -> nat -> S -> res (heap Qc * S)) fuel h s roots : steady f -> plain h -> (forall r, In r roots -> here h r) -> (length h < fuel)%nat ->
  exists h' s', visit_all fuel f h s roots = Ok (h', s') /\ plain h' /\ alike h h'.
Proof.
  intros St Pl R L. unfold visit_all.
  assert (U : forall sn, (unseen (length h) sn <= length h)%nat).
  { intros sn. unfold unseen. rewrite <- (seq_length (length h) 0) at 2. induction (seq 0 (length h)) as [|x l IH]; [reflexivity|]. cbn. destruct (negb _); cbn; lia. }
  assert (X : forall roots g sn s, plain g -> alike h g -> (forall r, In r roots -> here h r) ->
    exists h' sn' s', fold_res (fun st r => let '(h, seen, s) := st in visit fuel f h seen s r) roots (g, sn, s) = Ok (h', sn', s') /\ plain h' /\ alike h h').
  { clear roots R s. induction roots as [|r roots IH]; intros g sn s Pg Ag R; [exists g, sn, s; auto|]. pose proof (proj1 Ag) as Lg. cbn [fold_res].
    destruct (visit_safe f St fuel g sn s r Pg) as (g1 & sn1 & s1 & E & P1 & L1 & _); [apply (here_len h); [exact Lg|apply R; left; reflexivity]|rewrite Lg; pose proof (U sn); lia|].
    rewrite E. cbn [bind]. apply IH; [exact P1|apply (alike_trans _ _ _ Ag L1)|]. intros q I. apply R. right. exact I. }
  destruct (X roots h [] s Pl (alike_refl h) R) as (h' & sn' & s' & E & P' & L'). rewrite E. cbn [bind]. eauto.
Qed.
Lemma min_steady : steady min_level_step.
Proof. intros h a s Pl Ha. destruct (Pl a Ha) as ((l & E) & _). unfold min_level_step, level_of. rewrite E. cbn [bind]. exists h. eexists. split; [reflexivity|]. split; [exact Pl|apply alike_refl]. Qed.
Lemma plain_upd h a f : plain h -> (forall n, n_children (f n) = n_children n) -> (forall l n, n_level n = Some l -> exists l', n_level (f n) = Some l') -> plain (upd a f h).
Proof.
  intros Pl K L x Hx. assert (H : here h x) by (apply (here_len (upd a f h)); [symmetry; apply upd_length|exact Hx]). destruct (Pl x H) as ((l & E) & C).
  destruct (Nat.eq_dec a x) as [->|N].
  - rewrite get_upd_same by apply H. split; [apply (L l), E|]. rewrite K. intros c J. apply (here_len h); [apply upd_length|apply C, J].
  - rewrite get_upd_other by exact N. split; [eauto|]. intros c J. apply (here_len h); [apply upd_length|apply C, J].
Qed.
Lemma alike_upd h a f : (forall n, n_children (f n) = n_children n /\ n_parents (f n) = n_parents n /\ n_value (f n) = n_value n /\ n_expands (f n) = n_expands n) -> alike h (upd a f h).
Proof.
  intros E. split; [apply upd_length|]. intros x. destruct (Nat.lt_ge_cases x (length h)) as [B|B]; [|rewrite !get_beyond by (rewrite ?upd_length; exact B); auto].
  destruct (Nat.eq_dec a x) as [->|N]; [rewrite get_upd_same by exact B; apply E|rewrite get_upd_other by exact N; auto].
Qed.
Lemma tag_steady t k : steady (tag_levels_step t k).
Proof.
  intros h a s Pl Ha. destruct (Pl a Ha) as ((l & E) & _). unfold tag_levels_step, level_of. rewrite E. cbn [bind]. eexists _, _. split; [reflexivity|]. destruct (t <=? l); [|split; [exact Pl|apply alike_refl]].
  split; [|apply alike_upd; auto]. apply plain_upd; [exact Pl|reflexivity|]. intros l' n E'. exists l'. exact E'.
Qed.
Lemma apply_steady : steady apply_levels_step.
Proof.
  intros h a s Pl Ha. destruct (Pl a Ha) as ((l & E) & _). unfold apply_levels_step, level_of. rewrite E. cbn [bind]. eexists _, _. split; [reflexivity|].
  split; [|apply alike_upd; auto]. apply plain_upd; [exact Pl|reflexivity|]. intros l' n E'. cbn. eauto.
Qed.
Lemma inv_plain Q h seen : inv Q h seen -> plain h.
Proof. intros V x Hx. split; [apply (iv_level _ _ _ V x Hx)|]. intros c. apply (iv_kids _ _ _ V x c Hx). Qed.


Lemma fold_res_more {A B} (f g : A -> B -> res A) l : (forall a b r, f a b = Ok r -> g a b = Ok r) -> forall a r, fold_res f l a = Ok r -> fold_res g l a = Ok r.
Proof. clear. intros H. induction l as [|b l IH]; intros a r E; [exact E|]. cbn in *. destruct (f a b) as [a1|] eqn:E1; [|discriminate]. rewrite (H _ _ _ E1). cbn in *. apply IH, E. Qed.
Lemma visit_more {S} (f : heap Qc -> nat -> S -> res (heap Qc * S)) : forall n h seen s a r, visit n f h seen s a = Ok r -> forall m, (n <= m)%nat -> visit m f h seen s a = Ok r.
Proof.
  clear. induction n as [|n IH]; intros h seen s a r E m L; [discriminate|]. destruct m as [|m]; [lia|]. cbn [visit] in *. destruct (nat_in a seen); [exact E|]. destruct (f h a s) as [[h1 s1]|]; [|discriminate]. cbn [bind] in *.
  revert E. apply fold_res_more. intros [[g sn] s2] c r' E'. destruct (nat_in c sn); [exact E'|]. apply (IH _ _ _ _ _ E'). lia.
Qed.
Lemma visit_all_more {S} (f : heap Qc -> nat -> S -> res (heap Qc * S)) n m h s roots r : visit_all n f h s roots = Ok r -> (n <= m)%nat -> visit_all m f h s roots = Ok r.
Proof.
  clear. unfold visit_all. intros E L. destruct (fold_res _ roots _) as [[[g sn] s1]|] eqn:E1; [|discriminate].
  rewrite (fold_res_more _ (fun st r => let '(h, seen, s) := st in visit m f h seen s r) roots) with (r := (g, sn, s1)) (2 := E1); [exact E|].
  intros [[g' sn'] s'] b r' E'. apply (visit_more f n _ _ _ _ _ E' m L).
Qed.

Lemma walk_safe roots : Vis h0 [] -> (forall r, In r roots -> old r /\ pars h0 r = []) ->
  exists N h' h1 seen1, (forall n, (N <= n)%nat -> expand_roots n h0 roots = Ok h') /\ Vis h1 seen1 /\ alike h1 h'.
Proof.
  intros VN0 R. pose proof inv_start as V0. pose proof (inv_plain _ _ _ V0) as P0.
  destruct (visit_all_safe min_level_step (S (length h0)) h0 (2 ^ 32) (flat_map (fun r => kids h0 r) roots) min_steady P0) as (hm & ml & Em & _); [|lia|].
  { intros r J. apply in_flat_map in J. destruct J as (q & Iq & J). apply (Kids0 q r (proj1 (R q Iq)) J). }
  destruct (all_safe roots h0 [] [(1, 1 - ml)] VN0 R) as (h1 & us & N & E1 & sn & U1). pose proof (VI _ _ U1) as V1. pose proof (inv_plain _ _ _ V1) as P1.
  assert (R1 : forall r, In r roots -> here h1 r) by (intros r I; apply old_here; [apply (iv_len _ _ _ V1)|apply R, I]).
  assert (X : forall us g, plain g -> alike h1 g -> exists g',
    (forall n, (S (length h1) <= n)%nat -> fold_res (fun h u => do (h, _) <- visit_all n (tag_levels_step (fst u) (snd u)) h tt roots; Ok h) us g = Ok g') /\ plain g' /\ alike h1 g').
  { clear - R1 New Level0 Value0 Kids0 Pars0 Links0 Tags0 One0 Alone0 Vis VI VO VN. induction us as [|u us IH]; intros g Pg Ag; [exists g; auto|]. pose proof (proj1 Ag) as Lg.
    destruct (visit_all_safe (tag_levels_step (fst u) (snd u)) (S (length h1)) g tt roots (tag_steady _ _) Pg) as (g1 & [] & E & P1 & L1); [intros r I; apply (here_len h1); [exact Lg|apply R1, I]|lia|].
    destruct (IH g1 P1 (alike_trans _ _ _ Ag L1)) as (g2 & E2 & P2 & L2). exists g2. split; [|auto]. intros n Hn. cbn [fold_res]. rewrite (visit_all_more _ _ n _ _ _ _ E) by lia. cbn [bind]. apply E2, Hn. }
  destruct (X us h1 P1 (alike_refl h1)) as (h2 & E2 & P2 & A2). pose proof (proj1 A2) as L2.
  destruct (visit_all_safe apply_levels_step (S (length h1)) h2 tt roots apply_steady P2) as (h3 & [] & E3 & _ & A3); [intros r I; apply (here_len h1); [exact L2|apply R1, I]|lia|].
  exists (Nat.max N (Nat.max (S (length h0)) (S (length h1)))), h3, h1, sn. split; [|split; [exact U1|apply (alike_trans _ _ _ A2 A3)]]. intros n Hn. unfold expand_roots.
  rewrite (visit_all_more _ _ n _ _ _ _ Em) by lia. cbn [bind]. rewrite E1 by lia. cbn [bind]. rewrite E2 by lia. cbn [bind]. rewrite (visit_all_more _ _ n _ _ _ _ E3) by lia. reflexivity.
Qed.
End Walk.

Lemma expand_safe roots : (forall r, In r roots -> old r /\ pars h0 r = []) -> exists N h', forall n, (N <= n)%nat -> expand_roots n h0 roots = Ok h'.
Proof.
  intros R. destruct (walk_safe (fun h seen => inv (fun x => ~ In x seen) h seen)) with (roots := roots) as (N & h' & h1 & sn & E & _); try assumption; auto.
  - intros h seen a V Na Oa Pre. apply (tags_safe h seen a V Na Oa Pre).
  - intros h seen a V Na Ha B. destruct V. constructor; auto.
    + intros x Ox Nx. apply iv_tags0; [exact Ox|]. intros J. apply Nx. right. exact J.
    + intros x (W1 & W2 & W3). apply iv_q5. split; [exact W1|]. split; [exact W2|]. intros J. apply W3. right. exact J.
    + intros x c (W1 & W2 & W3) J. destruct (iv_q6 x c) as (A & B'); [split; [exact W1|]; split; [exact W2|]; intros K; apply W3; right; exact K|exact J|]. split; [|exact B']. intros [->|K]; [|contradiction]. destruct (Kids0 x c W1 J). lia.
    + intros x c y (W1 & W2 & W3). apply iv_q7. split; [exact W1|]. split; [exact W2|]. intros J. apply W3. right. exact J.
    + intros x y (W1 & W2 & W3). apply iv_q8. split; [exact W1|]. split; [exact W2|]. intros J. apply W3. right. exact J.
  - pose proof inv_start as V0. revert V0. apply inv_less. auto.
  - exists N, h'. exact E.
Qed.
End Safe.
