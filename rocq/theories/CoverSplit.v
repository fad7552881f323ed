(** What expanding a split, or any operation, does to the lists of the nodes. *)
From Verif Require Import Base BaseLemmas Cost CostSpec CostProofs Utils Fractions FractionsProofs Load Tree TreeSpec HeapLemmas Expand ExpandSpec BranchProofs LevelProofs BuildProofs
  ExpandProofs ExtractProofs FrameProofs MergeProofs SplitProofs LocalProofs MergeSafe TraverseSafe FlowSpec FlowProofs FlowMerge FlowTree FlowOps CoverWalk CoverOps CoverTree.
From Coq Require Import QArith Qcanon.
Open Scope Z_scope.

Section Fold.
Variables (a k : nat) (nv : Qc) (val : nat -> Qc).
Hypothesis Nak : a <> k.
Notation same := (fun x => frac_eqb (val x) nv).
Notation step := (fun (h : heap Qc) x => if frac_eqb (n_value (get h x)) nv then upd x (set_parents [k]) (upd k (add_child x) h) else upd a (add_child x) h).
Lemma split_fold : forall l g, (a < length g)%nat -> (k < length g)%nat -> (forall x, In x l -> (x < length g)%nat /\ x <> a /\ x <> k) -> (forall x, n_value (get g x) = val x) ->
  let g' := fold_left step l g in
  length g' = length g /\ (forall x, n_expands (get g' x) = n_expands (get g x)) /\ kids g' a = kids g a ++ filter (fun x => negb (same x)) l /\ kids g' k = kids g k ++ filter same l /\
  (forall x, pars g' x = if in_dec Nat.eq_dec x l then if same x then [k] else pars g x else pars g x).
Proof.
  induction l as [|y l IH]; intros g Ba Bk Hl Hv; cbn [fold_left filter]; [rewrite !app_nil_r; auto|]. cbv zeta. rewrite Hv.
  destruct (Hl y (or_introl eq_refl)) as (By & Nya & Nyk).
  assert (Hl' : forall g1 : heap Qc, length g1 = length g -> forall x, In x l -> (x < length g1)%nat /\ x <> a /\ x <> k) by (intros g1 -> x I; apply Hl; right; exact I).
  destruct (frac_eqb (val y) nv) eqn:Ey; cbn [negb].
  - set (g1 := upd y (set_parents [k]) (upd k (add_child y) g)). assert (L1 : length g1 = length g) by (unfold g1; rewrite !upd_length; reflexivity).
    assert (Gy : get g1 y = set_parents [k] (get g y)) by (unfold g1; rewrite get_upd_same by (rewrite upd_length; exact By); rewrite get_upd_other by congruence; reflexivity).
    assert (Gk : get g1 k = add_child y (get g k)) by (unfold g1; rewrite get_upd_other by exact Nyk; rewrite get_upd_same by exact Bk; reflexivity).
    assert (Go : forall x, x <> y -> x <> k -> get g1 x = get g x) by (intros x N1 N2; unfold g1; rewrite !get_upd_other by congruence; reflexivity).
    assert (Hv1 : forall x, n_value (get g1 x) = val x) by (intros x; rewrite <- Hv; destruct (Nat.eq_dec x y) as [->|N1]; [rewrite Gy; reflexivity|]; destruct (Nat.eq_dec x k) as [->|N2]; [rewrite Gk; reflexivity|rewrite Go by assumption; reflexivity]).
    destruct (IH g1 ltac:(lia) ltac:(lia) (Hl' g1 L1) Hv1) as (E1 & E2 & E3 & E4 & E5). split; [lia|]. split; [|split; [|split]].
    + intros x. rewrite E2. destruct (Nat.eq_dec x y) as [->|N1]; [rewrite Gy; reflexivity|]; destruct (Nat.eq_dec x k) as [->|N2]; [rewrite Gk; reflexivity|rewrite Go by assumption; reflexivity].
    + rewrite E3, Go by congruence. reflexivity.
    + rewrite E4, Gk. unfold add_child, set_children. cbn [n_children]. rewrite <- app_assoc. reflexivity.
    + intros x. rewrite E5. assert (Px : pars g1 x = if Nat.eq_dec y x then [k] else pars g x) by (destruct (Nat.eq_dec y x) as [<-|N1]; [rewrite Gy; reflexivity|]; destruct (Nat.eq_dec x k) as [->|N2]; [rewrite Gk; reflexivity|rewrite Go by congruence; reflexivity]). rewrite Px.
      destruct (in_dec Nat.eq_dec x (y :: l)) as [I|I], (in_dec Nat.eq_dec x l) as [J|J]; destruct (Nat.eq_dec y x) as [<-|N1]; rewrite ?Ey; try reflexivity; exfalso; cbn [In] in I; tauto.
  - set (g1 := upd a (add_child y) g). assert (L1 : length g1 = length g) by (unfold g1; rewrite !upd_length; reflexivity).
    assert (Ga : get g1 a = add_child y (get g a)) by (unfold g1; rewrite get_upd_same by exact Ba; reflexivity).
    assert (Go : forall x, x <> a -> get g1 x = get g x) by (intros x N1; unfold g1; rewrite get_upd_other by congruence; reflexivity).
    assert (Hv1 : forall x, n_value (get g1 x) = val x) by (intros x; rewrite <- Hv; destruct (Nat.eq_dec x a) as [->|N1]; [rewrite Ga; reflexivity|rewrite Go by assumption; reflexivity]).
    destruct (IH g1 ltac:(lia) ltac:(lia) (Hl' g1 L1) Hv1) as (E1 & E2 & E3 & E4 & E5). split; [lia|]. split; [|split; [|split]].
    + intros x. rewrite E2. destruct (Nat.eq_dec x a) as [->|N1]; [rewrite Ga; reflexivity|rewrite Go by assumption; reflexivity].
    + rewrite E3, Ga. unfold add_child, set_children. cbn [n_children]. rewrite <- app_assoc. reflexivity.
    + rewrite E4, Go by congruence. reflexivity.
    + intros x. rewrite E5. assert (Px : pars g1 x = pars g x) by (destruct (Nat.eq_dec x a) as [->|N1]; [rewrite Ga; reflexivity|rewrite Go by assumption; reflexivity]). rewrite Px.
      destruct (in_dec Nat.eq_dec x (y :: l)) as [I|I], (in_dec Nat.eq_dec x l) as [J|J]; try reflexivity; cbn [In] in I; [|exfalso; tauto]. destruct I as [<-|I]; [rewrite Ey; reflexivity|contradiction].
Qed.
End Fold.

Lemma split_grown h a c lvl : (a < length h)%nat -> n_level (get h a) = Some lvl -> 0 <= c -> ~ In a (kids h a) -> (forall x, In x (kids h a) -> (x < length h)%nat /\ pars h x = [a]) ->
  exists h' u, expand_split h a c = Ok (h', u) /\ grown h a (kids h a) h'.
Proof.
  intros Ba El Hc Na K. destruct (split_safe h a c lvl Ba El Hc K) as (h' & u & E & L). exists h', u. split; [exact E|].
  unfold expand_split, level_of in E. cbv zeta in E. rewrite El in E. cbn [bind] in E. set (nv := over (frac_of_Z c) 3) in *.
  destruct (new_node h _ (Some (lvl + 1)) (-1)) as [[g k]|] eqn:En; [|discriminate]. cbn [bind] in E. injection E as E _.
  set (cs := kids h a) in *. pose proof (effect_new _ _ _ _ _ _ En) as (-> & Lg & _). set (k := length h) in *.
  assert (Gg : forall x, x <> k -> get g x = get h x).
  { intros x N. unfold new_node in En. destruct (negative _); [discriminate|]. injection En as <-. destruct (Nat.lt_ge_cases x (length h)) as [B|B]; [apply get_app_l, B|]. rewrite !get_beyond; [reflexivity|lia|]. rewrite app_length. cbn. unfold k in N. lia. }
  assert (Gk : kids g k = [] /\ pars g k = [] /\ n_expands (get g k) = []).
  { unfold new_node in En. destruct (negative _); [discriminate|]. injection En as <-. unfold k. rewrite get_app_new. auto. }
  set (g1 := upd k (set_parents [a]) (upd k (set_children [k]) g)) in *. assert (L1 : length g1 = S k) by (unfold g1; rewrite !upd_length; exact Lg).
  assert (Nka : a <> k) by (unfold k; lia).
  assert (G1 : forall x, x <> k -> get g1 x = get h x) by (intros x N; unfold g1; rewrite !get_upd_other by congruence; apply Gg, N).
  assert (G1k : get g1 k = set_parents [a] (set_children [k] (get g k))) by (unfold g1; rewrite get_upd_same by (rewrite upd_length; lia); rewrite get_upd_same by lia; reflexivity).
  assert (K1 : kids g1 a = cs) by (rewrite G1 by exact Nka; reflexivity). rewrite K1 in E.
  set (g2 := upd a (set_children [k]) g1) in *. assert (L2 : length g2 = S k) by (unfold g2; rewrite upd_length; exact L1).
  assert (G2 : forall x, x <> k -> x <> a -> get g2 x = get h x) by (intros x N1 N2; unfold g2; rewrite get_upd_other by congruence; apply G1, N1).
  assert (G2a : get g2 a = set_children [k] (get h a)) by (unfold g2; rewrite get_upd_same by lia; rewrite G1 by exact Nka; reflexivity).
  assert (G2k : get g2 k = set_parents [a] (set_children [k] (get g k))) by (unfold g2; rewrite get_upd_other by exact Nka; exact G1k).
  assert (Hl : forall x, In x cs -> (x < length g2)%nat /\ x <> a /\ x <> k) by (intros x I; destruct (K x I) as (Bx & _); split; [rewrite L2; unfold k; lia|]; split; [intros ->; contradiction|unfold k; lia]).
  set (val := fun x => n_value (get g2 x)).
  destruct (split_fold a k nv val Nka cs g2 ltac:(unfold k in *; lia) ltac:(lia) Hl ltac:(reflexivity)) as (E1 & E2 & E3 & E4 & E5). rewrite E in E1, E2, E3, E4, E5.
  set (same := fun x => frac_eqb (val x) nv) in *.
  assert (Ka : kids h' a = k :: filter (fun x => negb (same x)) cs) by (rewrite E3, G2a; reflexivity).
  assert (Kk : kids h' k = k :: filter same cs) by (rewrite E4, G2k; reflexivity).
  assert (Pa : pars h' a = pars h a) by (rewrite E5; destruct (in_dec Nat.eq_dec a cs); [contradiction|]; rewrite G2a; reflexivity).
  assert (Pk : pars h' k = [a]) by (rewrite E5; destruct (in_dec Nat.eq_dec k cs) as [I|I]; [apply Hl in I; lia|]; rewrite G2k; reflexivity).
  assert (Pc : forall x, In x cs -> pars h' x = if same x then [k] else [a]).
  { intros x I. rewrite E5. destruct (in_dec Nat.eq_dec x cs); [|contradiction]. fold (same x). destruct (same x); [reflexivity|]. destruct (Hl x I) as (_ & N1 & N2). rewrite G2 by assumption. apply K, I. }
  assert (Inn : forall p, inner h a h' p -> p = a \/ p = k) by (intros p [->|Hp]; [auto|right; rewrite E1, L2 in Hp; unfold k in *; lia]).
  assert (Ik : inner h a h' k) by (right; rewrite E1, L2; unfold k; lia).
  constructor.
  - exact L.
  - exists []. rewrite app_nil_r. split; [exact Pa|intros p []].
  - exists []. rewrite app_nil_r, E2, G2a. split; [reflexivity|constructor].
  - intros x I. exists []. destruct (Hl x I) as (_ & N1 & N2). rewrite app_nil_r, E2, G2 by assumption. split; [reflexivity|constructor].
  - intros y Hy. assert (y = k) as -> by (rewrite E1, L2 in Hy; unfold k in *; lia). exists a. split; [auto|]. split; [exact Pk|]. rewrite Ka. left. reflexivity.
  - intros x I. rewrite (Pc x I). destruct (same x); discriminate.
  - intros x p I J. rewrite (Pc x I) in J. destruct (same x) eqn:Es; destruct J as [<-|[]]; (split; [first [exact Ik|left; reflexivity]|]); [rewrite Kk|rewrite Ka]; right; apply filter_In; rewrite ?Es; auto.
  - intros p x f Hp (l1 & l2 & El1 & _) _ I. left. rewrite (Pc x I). destruct (Hl x I) as (_ & N1 & N2). assert (J : In x (kids h' p)) by (rewrite El1; apply in_or_app; right; left; reflexivity).
    destruct (Inn p Hp) as [->| ->]; [rewrite Ka in J|rewrite Kk in J]; destruct J as [J|J]; try (exfalso; congruence); apply filter_In in J; destruct J as [_ J]; [apply negb_true_iff in J|]; rewrite J; reflexivity.
Qed.

(** any operation *)
Section Any.
Variables (h0 : heap Qc) (P : nat -> Prop).
Hypothesis Kids0 : forall x c, old h0 P x -> In c (kids h0 x) -> old h0 P c.
Hypothesis Tags0 : forall x t, old h0 P x -> In t (n_expands (get h0 x)) -> op_ready h0 x t.
Hypothesis Half0 : forall x c v, old h0 P x -> In (TExtract c) (n_expands (get h0 x)) -> n_value (get h0 x) = frac_of_Z v -> 2 * c < v.
Lemma op_grown Q h seen a t : inv h0 P Q h seen -> In a seen -> waiting h0 P Q a -> In t (n_expands (get h0 a)) -> is_op t = true ->
  exists h' u, expand_tag h a t = Ok (h', u) /\ grown h a (kids h a) h'.
Proof.
  intros V I W It Op. assert (Oa : old h0 P a) by apply W. pose proof (iv_len _ _ _ _ _ V) as LL. assert (Ba : (a < length h)%nat) by (destruct Oa; lia).
  assert (Ha : here P h a) by (split; [apply Oa|exact Ba]).
  destruct (iv_level _ _ _ _ _ V a Ha) as (lvl & El). pose proof (iv_value _ _ _ _ _ V a Ha) as Va. pose proof (iv_q1 _ _ _ _ _ V a W) as Ka. pose proof (iv_keep _ _ _ _ _ V a Oa) as Ea.
  assert (KP : forall c, In c (kids h a) -> (c < length h)%nat /\ pars h c = [a]).
  { intros c J. rewrite Ka in J. destruct (iv_q2 _ _ _ _ _ V a c W J) as (_ & E). destruct (Kids0 a c Oa J). split; [lia|exact E]. }
  assert (Na : ~ In a (kids h a)) by (rewrite Ka; intros J; destruct (iv_q2 _ _ _ _ _ V a a W J); contradiction).
  pose proof (Tags0 a t Oa It) as R. destruct t as [c|d|k|c]; try discriminate Op; cbn [expand_tag op_ready] in *.
  - destruct R as (v & ext & ovf & Ev & Hv & Hc & Ne & Kx & Vx & Vo & Lim).
    assert (Ox : In ext (kids h0 a) /\ In ovf (kids h0 a)) by (destruct Kx as [->|[-> _]]; cbn; auto). destruct Ox as [Ox Oo].
    apply (extract_grown h a v c lvl ext ovf); try assumption.
    + constructor; try assumption.
      * rewrite Ea. exact Ev.
      * rewrite Ka. exact Kx.
      * rewrite (iv_keep _ _ _ _ _ V); [exact Vx|apply (Kids0 a ext Oa Ox)].
      * rewrite (iv_keep _ _ _ _ _ V); [exact Vo|apply (Kids0 a ovf Oa Oo)].
      * rewrite Ka in Na. split; [exact Ne|]. split; intros ->; contradiction.
      * rewrite Ka in KP. split; apply KP; assumption.
    + apply KP. rewrite Ka. exact Ox.
    + apply KP. rewrite Ka. exact Oo.
    + apply (Half0 a c v Oa It Ev).
  - destruct R as (Hd & Nd & Cn & Lim). apply (divide_grown h a d lvl); try assumption.
    + constructor; try assumption; try (rewrite Ka; assumption). intros c J. apply KP, J.
    + intros c J. apply KP, J.
    + rewrite Ea. exact Lim.
  - apply (split_grown h a c lvl); assumption.
Qed.
End Any.
