(** Expanding a merge touches its node, the parents of that node and new nodes,
    and does not fail. *)
From Verif Require Import Base BaseLemmas Cost Utils Fractions FractionsProofs Load Tree TreeSpec HeapLemmas Expand ExpandSpec LevelProofs ExpandProofs FrameProofs LocalProofs.
From Coq Require Import QArith Qcanon.
Open Scope Z_scope.

Section Merge.
Variables (h : heap Qc) (a : nat).
Hypothesis Ha : (a < length h)%nat.
Hypothesis La : exists l, n_level (get h a) = Some l.
Hypothesis Hp : forall p, In p (pars h a) -> (p < length h)%nat /\ (exists l, n_level (get h p) = Some l) /\ (Q2Qc 0 <= n_value (get h p))%Qc.

Definition fresh (g : heap Qc) (y : nat) : Prop := (length h <= y < length g)%nat.
Record mer (g : heap Qc) : Prop := {
  me_len : (length h <= length g)%nat;
  me_old : forall y, (y < length h)%nat -> n_value (get g y) = n_value (get h y) /\ n_level (get g y) = n_level (get h y) /\ n_expands (get g y) = n_expands (get h y);
  me_kids : forall y, (y < length h)%nat -> ~ In y (pars h a) -> kids g y = kids h y;
  me_kids_in : forall y c, (y < length h)%nat -> In c (kids g y) -> In c (kids h y) \/ fresh g c;
  me_pars : forall y, (y < length h)%nat -> y <> a -> pars g y = pars h y;
  me_pars_in : forall y p, y = a \/ fresh g y -> In p (pars g y) -> In p (pars h a) \/ fresh g p;
  me_new : forall y, fresh g y -> (exists l, n_level (get g y) = Some l) /\ (Q2Qc 0 <= n_value (get g y))%Qc /\ n_expands (get g y) = [];
  me_new_kids : forall y c, fresh g y -> In c (kids g y) -> c = a \/ fresh g c
}.
Lemma mer_start : mer h.
Proof. constructor; unfold fresh; try (intros; auto; fail); try (intros; lia). intros y p [->|I] J; [auto|lia]. Qed.

Lemma mer_upd g y f : mer g -> (y < length g)%nat ->
  n_value (f (get g y)) = n_value (get g y) -> n_expands (f (get g y)) = n_expands (get g y) ->
  n_level (f (get g y)) = n_level (get g y) \/ (fresh g y /\ exists l, n_level (f (get g y)) = Some l) ->
  ((y < length h)%nat -> In y (pars h a) \/ n_children (f (get g y)) = kids g y) ->
  (forall c, In c (n_children (f (get g y))) -> In c (kids g y) \/ fresh g c \/ (fresh g y /\ c = a)) ->
  ((y < length h)%nat -> y = a \/ n_parents (f (get g y)) = pars g y) ->
  (forall p, In p (n_parents (f (get g y))) -> In p (pars g y) \/ In p (pars h a) \/ fresh g p) ->
  mer (upd y f g).
Proof.
  intros M By V X L K1 K2 P1 P2.
  assert (G : forall z, get (upd y f g) z = if (y =? z)%nat then f (get g z) else get g z).
  { intros z. destruct (Nat.eqb_spec y z) as [<-|N]; [apply get_upd_same, By|apply get_upd_other, N]. }
  assert (FR : forall z, fresh (upd y f g) z <-> fresh g z) by (intros z; unfold fresh; rewrite upd_length; reflexivity).
  constructor.
  - rewrite upd_length. apply (me_len _ M).
  - intros z Bz. rewrite G. pose proof (me_old _ M z Bz) as O. destruct (Nat.eqb_spec y z) as [<-|N]; [|exact O]. rewrite V, X. destruct L as [L|[L _]]; [rewrite L; exact O|unfold fresh in L; lia].
  - intros z Bz Nz. rewrite G. destruct (Nat.eqb_spec y z) as [<-|N]; [|apply (me_kids _ M); assumption]. destruct (K1 Bz) as [K|K]; [contradiction|]. rewrite K. apply (me_kids _ M); assumption.
  - intros z c Bz J. rewrite G in J. rewrite FR. destruct (Nat.eqb_spec y z) as [<-|N]; [|apply (me_kids_in _ M); assumption].
    destruct (K2 c J) as [K|[K|[K _]]]; [apply (me_kids_in _ M y c Bz K)|right; exact K|unfold fresh in K; lia].
  - intros z Bz Nz. rewrite G. destruct (Nat.eqb_spec y z) as [<-|N]; [|apply (me_pars _ M); assumption]. destruct (P1 Bz) as [P|P]; [contradiction|]. rewrite P. apply (me_pars _ M); assumption.
  - intros z p Iz J. rewrite G in J. rewrite FR in *. destruct (Nat.eqb_spec y z) as [<-|N]; [|apply (me_pars_in _ M z); assumption].
    destruct (P2 p J) as [K|K]; [apply (me_pars_in _ M y); assumption|exact K].
  - intros z Iz. rewrite FR in Iz. rewrite G. destruct (me_new _ M z Iz) as (X1 & X2 & X3). destruct (Nat.eqb_spec y z) as [<-|N]; [|auto]. rewrite V, X. split; [|auto]. destruct L as [->|[_ L]]; assumption.
  - intros z c Iz J. rewrite G in J. rewrite FR in *. destruct (Nat.eqb_spec y z) as [<-|N]; [|apply (me_new_kids _ M z); assumption].
    destruct (K2 c J) as [K|[K|[_ K]]]; [apply (me_new_kids _ M y); assumption|auto|auto].
Qed.
Lemma mer_new g v l k g' x : mer g -> new_node g v (Some l) k = Ok (g', x) -> mer g' /\ fresh g' x /\ x = length g /\ length g' = S (length g) /\ (forall y, (y < length g)%nat -> get g' y = get g y).
Proof.
  unfold new_node. destruct (negative v) eqn:Nv; [discriminate|]. intros M [= <- <-]. pose proof (me_len _ M) as LL. set (nd := MkNode v _ _ _ _ _ _ _).
  assert (G : forall z, (z < length g)%nat -> get (g ++ [nd]) z = get g z) by (intros z B; apply get_app_l, B).
  assert (GN : get (g ++ [nd]) (length g) = nd) by apply get_app_new.
  assert (LN : length (g ++ [nd]) = S (length g)) by (rewrite app_length; cbn [length]; lia).
  assert (IN : forall z, fresh g z -> fresh (g ++ [nd]) z) by (unfold fresh; intros z; lia).
  assert (BE : forall z, fresh (g ++ [nd]) z -> fresh g z \/ z = length g) by (unfold fresh; intros z; lia).
  split; [|unfold fresh; split; [lia|]; auto]. constructor.
  - lia.
  - intros y B. rewrite G by lia. apply (me_old _ M), B.
  - intros y B. rewrite G by lia. apply (me_kids _ M), B.
  - intros y c B J. rewrite G in J by lia. destruct (me_kids_in _ M y c B J); auto.
  - intros y B. rewrite G by lia. apply (me_pars _ M), B.
  - intros y p I J. assert (X : (y = a \/ fresh g y) \/ y = length g) by (destruct I as [I|I]; [|apply BE in I]; tauto).
    destruct X as [X| ->]; [|rewrite GN in J; destruct J]. rewrite G in J by (unfold fresh in X; lia). destruct (me_pars_in _ M y p X J); auto.
  - intros y I. apply BE in I. destruct I as [I| ->]; [rewrite G by (unfold fresh in I; lia); apply (me_new _ M), I|]. rewrite GN. cbn. split; [eauto|]. split; [apply negative_false, Nv|reflexivity].
  - intros y c I J. apply BE in I. destruct I as [I| ->]; [|rewrite GN in J; destruct J]. rewrite G in J by (unfold fresh in I; lia). destruct (me_new_kids _ M y c I J); auto.
Qed.

Definition source (g : heap Qc) (p : nat) : Prop := In p (pars h a) \/ fresh g p.
Lemma source_ok g p : mer g -> source g p -> (p < length g)%nat /\ (exists l, n_level (get g p) = Some l) /\ (Q2Qc 0 <= n_value (get g p))%Qc.
Proof.
  intros M [I|I]; [|destruct (me_new _ M p I) as (X1 & X2 & _); unfold fresh in I; split; [lia|auto]]. destruct (Hp p I) as (B & L & V). destruct (me_old _ M p B) as (-> & -> & _). pose proof (me_len _ M). split; [lia|auto].
Qed.
Lemma share_nonneg g p : (Q2Qc 0 <= n_value (get g p))%Qc -> (Q2Qc 0 <= share g p)%Qc.
Proof. intros V. unfold share. destruct (n_children (get g p)) as [|c cs]; [exact V|]. apply nonneg_over; [exact V|lia]. Qed.
Lemma shares_nonneg g l : forall s, (Q2Qc 0 <= s)%Qc -> (forall p, In p l -> (Q2Qc 0 <= n_value (get g p))%Qc) -> (Q2Qc 0 <= fold_left (fun s a => (s + share g a)%Qc) l s)%Qc.
Proof. induction l as [|p l IH]; intros s Hs F; [exact Hs|]. cbn. apply IH; [apply nonneg_plus; [exact Hs|apply share_nonneg, F; left; reflexivity]|intros q I; apply F; right; exact I]. Qed.

Lemma mer_link g c x : mer g -> source g x -> fresh g c -> mer (upd c (add_parent x) (upd x (add_child c) g)).
Proof.
  intros M S F. pose proof (proj1 (source_ok g x M S)) as Bx.
  assert (M1 : mer (upd x (add_child c) g)).
  { apply mer_upd; try reflexivity; auto.
    - intros B. destruct S as [S|S]; [left; exact S|unfold fresh in S; lia].
    - intros y J. cbn in J. apply in_app_iff in J. destruct J as [J|[<-|[]]]; auto. }
  assert (FR : forall z, fresh (upd x (add_child c) g) z <-> fresh g z) by (intros z; unfold fresh; rewrite upd_length; reflexivity).
  apply mer_upd; try reflexivity; auto.
  - rewrite upd_length. unfold fresh in F. lia.
  - intros B. unfold fresh in F. lia.
  - intros p J. cbn in J. apply in_app_iff in J. destruct J as [J|[<-|[]]]; [auto|]. right. destruct S as [S|S]; [left; exact S|right; apply FR, S].
Qed.
Lemma mer_drop g x : mer g -> source g x -> mer (upd x (drop_child a) g).
Proof.
  intros M S. pose proof (proj1 (source_ok g x M S)) as Bx. apply mer_upd; try reflexivity; auto.
  - intros B. destruct S as [S|S]; [left; exact S|unfold fresh in S; lia].
  - intros y J. cbn in J. apply filter_In in J. left. apply J.
Qed.
Lemma pars_upd (g : heap Qc) y f b : (forall n, n_parents (f n) = n_parents n) \/ y <> b -> pars (upd y f g) b = pars g b.
Proof.
  intros [E|N]; [|rewrite get_upd_other by exact N; reflexivity]. destruct (Nat.eq_dec y b) as [->|N]; [|rewrite get_upd_other by exact N; reflexivity].
  destruct (Nat.lt_ge_cases b (length g)) as [B|B]; [rewrite get_upd_same by exact B; apply E|rewrite upd_past by exact B; reflexivity].
Qed.

Lemma merge_three_safe g : mer g -> (3 <= length (pars g a))%nat -> exists g', merge_three g a = Ok g' /\ mer g' /\ (length (pars g' a) + 2 = length (pars g a))%nat.
Proof.
  intros M L. pose proof (me_len _ M) as LL. unfold merge_three. destruct (rev (pars g a)) as [|x [|y [|z rest]]] eqn:R; try (apply (f_equal (@length nat)) in R; rewrite rev_length in R; cbn in R; lia).
  assert (LR : length (pars g a) = (3 + length rest)%nat) by (rewrite <- (rev_length (pars g a)), R; reflexivity).
  assert (S : forall p, In p (x :: y :: z :: rest) -> source g p).
  { intros p I. rewrite <- R in I. apply in_rev in I. destruct (me_pars_in _ M a p (or_introl eq_refl) I); [left|right]; assumption. }
  set (g1 := upd a (set_parents (rev rest)) g).
  assert (M1 : mer g1).
  { apply mer_upd; try reflexivity; auto; [lia|]. intros p J. cbn in J. apply in_rev in J. right. destruct (S p) as [Q|Q]; [right; right; right; exact J|auto|auto]. }
  assert (L1 : length g1 = length g) by apply upd_length.
  assert (S1 : forall p, In p [x; y; z] -> source g1 p).
  { intros p I. destruct (S p) as [Q|Q]; [cbn in I |- *; tauto|left; exact Q|right; unfold fresh in *; rewrite L1; exact Q]. }
  cbv zeta. fold g1. unfold merge_nodes. cbv zeta.
  assert (LV : forall p, In p [x; y; z] -> exists l, n_level (get g1 p) = Some l) by (intros p I; apply (source_ok g1 p M1 (S1 p I))).
  destruct (LV x) as (lx & Ex); [cbn; auto|]. destruct (LV y) as (ly & Ey); [cbn; auto|]. destruct (LV z) as (lz & Ez); [cbn; auto|].
  cbn [map_res]. unfold level_of. rewrite Ex, Ey, Ez. cbn [bind map_res]. destruct (zmax [lx; ly; lz]) as [ml|] eqn:Em; [|discriminate Em].
  set (sum := fold_left _ [x; y; z] _).
  assert (Sn : (Q2Qc 0 <= sum)%Qc) by (apply shares_nonneg; [apply foz_nonneg; lia|intros p I; apply (source_ok g1 p M1 (S1 p I))]).
  destruct (new_node g1 sum (Some (ml + 1)) 0) as [[g2 c]|] eqn:E2; [|unfold new_node in E2; rewrite (proj2 (negative_false _) Sn) in E2; discriminate]. cbn [bind].
  destruct (mer_new _ _ _ _ _ _ M1 E2) as (M2 & Fc & Ec & L2 & G2).
  change (length [x; y; z] <=? 1)%nat with false. change (3 <? length [x; y; z])%nat with false. cbv iota. cbn [bind fold_left].
  assert (FR : forall g', length g' = length g2 -> forall p, fresh g2 p -> fresh g' p) by (unfold fresh; intros g' -> p; auto).
  assert (SR : forall g' p, length g' = length g2 -> In p [x; y; z] -> source g' p).
  { intros g' p E I. destruct (S1 p I) as [Q|Q]; [left; exact Q|right]. unfold fresh in *. lia. }
  set (g3 := upd c (add_parent z) _).
  assert (L3 : length g3 = length g2) by (unfold g3; rewrite !upd_length; reflexivity).
  assert (M3 : mer g3).
  { unfold g3. apply mer_link; [apply mer_link; [apply mer_link; [exact M2| |]| |]| |]; try (apply SR; [rewrite ?upd_length; reflexivity|cbn; auto]); try (apply FR; [rewrite ?upd_length; reflexivity|exact Fc]). }
  set (g4 := upd z (drop_child a) _).
  assert (L4 : length g4 = length g2) by (unfold g4; rewrite !upd_length; exact L3).
  assert (M4 : mer g4).
  { unfold g4. apply mer_drop; [apply mer_drop; [apply mer_drop; [exact M3|]|]|]; (apply SR; [rewrite ?upd_length; exact L3|cbn; auto]). }
  set (g5 := upd c (set_level (n_level (get g4 a))) g4).
  assert (F4 : fresh g4 c) by (apply FR; assumption).
  assert (M5 : mer g5).
  { apply mer_upd; try reflexivity; auto; [unfold fresh in F4; lia|]. right. split; [exact F4|]. cbn. destruct (me_old _ M4 a Ha) as (_ & -> & _). exact La. }
  assert (L5 : length g5 = length g2) by (unfold g5; rewrite upd_length; exact L4).
  set (g6 := upd c (add_child a) g5).
  assert (F5 : fresh g5 c) by (apply FR; assumption).
  assert (M6 : mer g6).
  { apply mer_upd; try reflexivity; auto; [unfold fresh in F5; lia|unfold fresh in F5; lia|]. intros p J. cbn in J. apply in_app_iff in J. destruct J as [J|[<-|[]]]; auto. }
  assert (L6 : length g6 = length g2) by (unfold g6; rewrite upd_length; exact L5).
  assert (Ca : c <> a) by (unfold fresh in Fc; lia).
  eexists. split; [reflexivity|]. split.
  - apply mer_upd; try reflexivity; auto; [lia|]. intros p J. cbn in J. apply in_app_iff in J. destruct J as [J|[<-|[]]]; [auto|]. right. right. apply FR; assumption.
  - rewrite get_upd_same by lia. cbn [n_parents add_parent set_parents]. rewrite app_length. cbn [length].
    assert (E6 : pars g6 a = rev rest); [|rewrite E6, rev_length; lia].
    unfold g6, g5, g4, g3. rewrite !pars_upd by (first [left; reflexivity|right; exact Ca]). rewrite G2 by lia. unfold g1. rewrite get_upd_same by lia. reflexivity.
Qed.
Lemma merge_loop_safe k : 2 <= k -> forall fuel g, mer g -> (length (pars g a) <= fuel)%nat -> exists g', merge_loop fuel k g a = Ok g' /\ mer g'.
Proof.
  intros Hk. induction fuel as [|fuel IH]; intros g M L; cbn [merge_loop].
  - rewrite (proj2 (Z.leb_le _ _)) by lia. eauto.
  - destruct (Z.leb_spec (Z.of_nat (length (pars g a))) k) as [B|B]; [eauto|]. destruct (merge_three_safe g M) as (g1 & E & M1 & L1); [lia|]. rewrite E. cbn [bind]. apply IH; [exact M1|lia].
Qed.
Lemma merge_safe k : 2 <= k -> exists g u, expand_merge h a k = Ok (g, u) /\ mer g.
Proof. intros Hk. unfold expand_merge. destruct (merge_loop_safe k Hk (length (pars h a)) h mer_start (le_n _)) as (g & E & M). rewrite E. cbn [bind]. eauto. Qed.
End Merge.
