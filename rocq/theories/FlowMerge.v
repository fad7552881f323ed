(** Merging keeps the flow, as long as no splitter has belts both among those that
    are led to a merger and among those that stay. *)
From Verif Require Import Base BaseLemmas Cost CostSpec CostProofs Utils Fractions FractionsProofs Load Tree TreeSpec HeapLemmas Expand ExpandSpec LevelProofs ExpandProofs
  FrameProofs MergeProofs LocalProofs MergeSafe TraverseSafe FlowSpec FlowProofs.
From Coq Require Import QArith Qcanon.
Open Scope Z_scope.

Lemma without_twice a l : without a (without a l) = without a l.
Proof. unfold without. induction l as [|x l IH]; [reflexivity|]. cbn. destruct (negb (x =? a)%nat) eqn:E; cbn; rewrite ?E, IH; reflexivity. Qed.
Lemma without_app a l l' : without a (l ++ l') = without a l ++ without a l'.
Proof. unfold without. apply filter_app. Qed.
Lemma without_other a c k : c <> a -> without a (repeat c k) = repeat c k.
Proof. intros N. unfold without. induction k as [|k IH]; [reflexivity|]. cbn. rewrite (proj2 (Nat.eqb_neq c a) N). cbn. rewrite IH. reflexivity. Qed.
Lemma without_perm a l : Permutation l (without a l ++ repeat a (cnt a l)).
Proof.
  apply (Permutation_count_occ Nat.eq_dec). intros x. rewrite cnt_app, without_cnt. destruct (Nat.eqb_spec x a) as [->|N]; [rewrite cnt_repeat; reflexivity|]. rewrite cnt_repeat_other by exact N. lia.
Qed.
Lemma without_none a l : cnt a l = O -> without a l = l.
Proof.
  unfold without. induction l as [|x l IH]; [reflexivity|]. cbn [count_occ filter]. destruct (Nat.eq_dec x a) as [E|N]; [discriminate|]. rewrite (proj2 (Nat.eqb_neq x a) N). intros H. cbn. rewrite IH by exact H. reflexivity.
Qed.

Lemma skipn_skipn {A} x : forall y (l : list A), skipn x (skipn y l) = skipn (x + y) l.
Proof. induction y as [|y IH]; intros l; [rewrite Nat.add_0_r; reflexivity|]. rewrite Nat.add_succ_r. destruct l as [|b l]; [apply skipn_nil|]. cbn. apply IH. Qed.

Record gathered (g g' : heap Qc) (a x y z : nat) (rest : list nat) : Prop := {
  ga_length : length g' = S (length g);
  ga_parents : pars g a = rest ++ [z; y; x];
  ga_node : pars g' a = rest ++ [length g];
  ga_merger : pars g' (length g) = [x; y; z] /\ kids g' (length g) = [a];
  ga_pars : forall w, (w < length g)%nat -> w <> a -> pars g' w = pars g w;
  ga_kids : forall w, (w < length g)%nat -> kids g' w = (if in_dec Nat.eq_dec w [x; y; z] then without a (kids g w) else kids g w) ++ repeat (length g) (cnt w [x; y; z])
}.
Lemma merge_gathers g g' a : merge_three g a = Ok g' -> (a < length g)%nat -> (forall p, In p (pars g a) -> (p < length g)%nat /\ p <> a) ->
  exists x y z rest, gathered g g' a x y z rest.
Proof.
  intros E Ba Hp. unfold merge_three in E. pose proof (rev_involutive (pars g a)) as RI. destruct (rev (pars g a)) as [|x [|y [|z rest]]] eqn:R; try discriminate.
  cbn [rev] in RI. rewrite <- !app_assoc in RI. cbn [app] in RI. set (g1 := upd a (set_parents (rev rest)) g) in *. cbv zeta in E.
  destruct (merge_nodes g1 [x; y; z]) as [[g3 c]|] eqn:E3; [|discriminate]. cbn [bind] in E. injection E as <-.
  unfold merge_nodes in E3. cbv zeta in E3. destruct (map_res _ _) as [ls|]; [|discriminate]. cbn [bind] in E3. destruct (zmax ls) as [l|]; [|discriminate].
  unfold new_node in E3. destruct (negative _); [discriminate|]. cbn [bind] in E3. change (length [x; y; z] <=? 1)%nat with false in E3. change (3 <? length [x; y; z])%nat with false in E3. cbv iota in E3. cbn [fold_left] in E3. injection E3 as E3 Ec.
  assert (L1 : length g1 = length g) by apply upd_length. rewrite L1 in Ec. 
  set (nd := MkNode _ _ _ _ _ _ _ _) in E3. set (g2 := g1 ++ [nd]) in *. rewrite L1 in E3.
  assert (L2 : length g2 = S (length g)) by (unfold g2; rewrite app_length, L1; cbn; lia).
  assert (G2 : forall w, (w < length g)%nat -> get g2 w = if (a =? w)%nat then set_parents (rev rest) (get g w) else get g w).
  { intros w B. unfold g2. rewrite get_app_l by lia. unfold g1. apply upd_get, Ba. }
  assert (GC : get g2 (length g) = nd) by (unfold g2; rewrite <- L1; apply get_app_new).
  subst c. set (c := length g) in *.
  assert (H3 : forall p, In p [x; y; z] -> (p < c)%nat /\ p <> a) by (intros p I; apply Hp; rewrite <- RI; apply in_or_app; right; cbn in *; tauto).
  destruct (H3 x) as [Bx Nx]; [cbn; auto|]. destruct (H3 y) as [By Ny]; [cbn; auto|]. destruct (H3 z) as [Bz Nz]; [cbn; auto|].
  assert (L3 : length g3 = S c) by (rewrite <- E3, !upd_length; exact L2).
  exists x, y, z, (rev rest). constructor.
  - rewrite !upd_length. exact L3.
  - symmetry. exact RI.
  - rewrite get_upd_same by (rewrite ?upd_length; lia). cbn [add_parent set_parents n_parents]. f_equal. rewrite <- E3. rewrite !pars_upd by (first [left; reflexivity|right; fold c; lia]).
    rewrite G2 by exact Ba. rewrite Nat.eqb_refl. reflexivity.
  - fold c. split.
    + rewrite !pars_upd by (first [left; reflexivity|right; lia]). rewrite <- E3. gets. rewrite GC. reflexivity.
    + gets. rewrite <- E3. gets. rewrite GC. reflexivity.
  - intros w B N. fold c in B |- *. rewrite pars_upd by (right; congruence). rewrite !pars_upd by (left; reflexivity). rewrite <- E3. rewrite !pars_upd by (first [left; reflexivity|right; lia]).
    rewrite G2 by exact B. rewrite (proj2 (Nat.eqb_neq a w)) by congruence. reflexivity.
  - intros w B. fold c in B |- *.
    assert (K2 : kids g2 w = kids g w) by (rewrite G2 by exact B; destruct (a =? w)%nat; reflexivity).
    assert (KU : forall (h : heap Qc) i f v, (i < length h)%nat -> kids (upd i f h) v = if (i =? v)%nat then n_children (f (get h v)) else kids h v) by (intros h i f v Bi; rewrite upd_get by exact Bi; destruct (i =? v)%nat; reflexivity).
    assert (Nc : c <> a) by lia.
    rewrite (KU _ a) by (rewrite ?upd_length; lia). cbn [add_parent set_parents n_children]. assert (SI : forall (b : bool) (u : list nat), (if b then u else u) = u) by (intros []; reflexivity). rewrite SI. rewrite (KU _ c), (KU _ c) by (rewrite ?upd_length; lia). rewrite (proj2 (Nat.eqb_neq c w)) by lia.
    assert (AD : forall (h : heap Qc) p, (p < length h)%nat -> (c < length h)%nat -> kids (upd c (add_parent p) (upd p (add_child c) h)) w = kids h w ++ (if (p =? w)%nat then [c] else [])).
    { intros h p Bp Bc. rewrite (KU _ c) by (rewrite ?upd_length; lia). rewrite (proj2 (Nat.eqb_neq c w)) by lia. rewrite (KU _ p) by exact Bp. destruct (p =? w)%nat; [reflexivity|]. rewrite app_nil_r. reflexivity. }
    assert (DL : forall (h : heap Qc) p, (p < length h)%nat -> kids (upd p (drop_child a) h) w = if (p =? w)%nat then without a (kids h w) else kids h w) by (intros h p Bp; rewrite (KU _ p) by exact Bp; reflexivity).
    assert (K3 : kids g3 w = kids g w ++ (if (x =? w)%nat then [c] else []) ++ (if (y =? w)%nat then [c] else []) ++ (if (z =? w)%nat then [c] else [])).
    { rewrite <- E3. rewrite !AD by (rewrite ?upd_length; lia). rewrite K2, <- !app_assoc. reflexivity. }
    rewrite !DL by (rewrite ?upd_length; lia).
    assert (IFF : forall (b : bool) (u v : list nat), without a (if b then u else v) = if b then without a u else without a v) by (intros []; reflexivity).
    rewrite !IFF, !without_twice, K3.
    destruct (in_dec Nat.eq_dec w [x; y; z]) as [I|I].
    + transitivity (without a (kids g w ++ (if (x =? w)%nat then [c] else []) ++ (if (y =? w)%nat then [c] else []) ++ (if (z =? w)%nat then [c] else []))).
      * cbn [In] in I. destruct (Nat.eqb_spec z w); [destruct (y =? w)%nat, (x =? w)%nat; reflexivity|]. destruct (Nat.eqb_spec y w); [destruct (x =? w)%nat; reflexivity|]. destruct (Nat.eqb_spec x w); [reflexivity|tauto].
      * rewrite without_app. f_equal. cbn [count_occ]. destruct (Nat.eqb_spec x w), (Nat.eqb_spec y w), (Nat.eqb_spec z w); destruct (Nat.eq_dec x w), (Nat.eq_dec y w), (Nat.eq_dec z w); try contradiction; cbn [app repeat];
          unfold without; cbn [filter]; rewrite ?(proj2 (Nat.eqb_neq c a) Nc); reflexivity.
    + assert (Nn : x <> w /\ y <> w /\ z <> w) by (cbn in I; tauto). destruct Nn as (N1 & N2 & N3). rewrite !(proj2 (Nat.eqb_neq _ w)) by assumption. rewrite (cnt_out w) by exact I. reflexivity.
Qed.

Section Merging.
Variables (h0 : heap Qc) (P : nat -> Prop) (roots : list nat) (pend : nat -> nat) (total : nat).
Hypothesis New : forall x, (length h0 <= x)%nat -> P x.
Hypothesis Kids0 : forall x c, old h0 P x -> In c (kids h0 x) -> old h0 P c.
Hypothesis Roots0 : forall r, In r roots -> old h0 P r.
Hypothesis Value0 : forall x, old h0 P x -> (Q2Qc 0 < n_value (get h0 x))%Qc.
Notation flow := (fg h0 P roots pend total).
Definition pa (h : heap Qc) (w : nat) : list nat := pars h w.
Definition ki (h : heap Qc) (w : nat) : list nat := kids h w.

(** the children of [w], with the links to [a] that were cut too early *)
Definition vk (g : heap Qc) (a : nat) (cons : list nat) (w : nat) : list nat := kids g w ++ repeat a (if in_dec Nat.eq_dec w cons then cnt w (pars g a) else O).

Lemma merge_three_flow Q g g' a cons T B : flow Q (length g) (vk g a cons) (pa g) T B -> old h0 P a -> (forall w, In w cons -> cnt a (kids g w) = O /\ (w < length g)%nat) ->
  merge_three g a = Ok g' ->
  exists x y z rest T' B', gathered g g' a x y z rest /\ flow Q (length g') (vk g' a (x :: y :: z :: cons)) (pa g') T' B' /\
    (forall w, In w (x :: y :: z :: cons) -> cnt a (kids g' w) = O /\ (w < length g)%nat).
Proof.
  intros F Oa HC E. pose proof (fg_len _ _ _ _ _ _ _ _ _ _ _ F) as LL. pose proof (old_inside h0 P (length g) a LL Oa) as Ha.
  assert (Hp : forall p, In p (pars g a) -> (p < length g)%nat /\ p <> a).
  { intros p I. destruct (fg_into h0 P roots pend total Q (length g) (vk g a cons) (pa g) T B a p F Ha I) as (X1 & X2 & _). split; [apply X1|exact X2]. }
  destruct (merge_gathers g g' a E (proj2 Ha) Hp) as (x & y & z & rest & G). exists x, y, z, rest. destruct G.
  set (cons' := x :: y :: z :: cons).
  assert (HC' : forall w, In w cons' -> cnt a (kids g' w) = O /\ (w < length g)%nat).
  { intros w I. assert (Bw : (w < length g)%nat).
    { destruct I as [<-|[<-|[<-|I]]]; [| | |apply HC, I]; apply Hp; rewrite ga_parents0; apply in_or_app; right; cbn; auto. }
    split; [|exact Bw]. rewrite ga_kids0 by exact Bw. rewrite cnt_app, (cnt_repeat_other a (length g)) by (destruct Ha; lia). rewrite Nat.add_0_r. destruct (in_dec Nat.eq_dec w [x; y; z]) as [J|J].
    - rewrite without_cnt, Nat.eqb_refl. reflexivity.
    - apply HC. unfold cons' in I. cbn [In] in I, J. tauto. }
  assert (X : flow Q (S (length g)) (vk g' a cons') (mg_pars (length g) (pa g) a x y z rest) (mg_through (length g) T B a x y z) (mg_belt (length g) B a x y z)).
  { eapply fg_merge; try eassumption.
    - intros w Hw. destruct Hw as [Pw Bw]. unfold vk. rewrite ga_kids0 by exact Bw. set (m := cnt w [x; y; z]).
      assert (CR : (cnt w (pars g a) = cnt w rest + m)%nat).
      { rewrite ga_parents0, cnt_app. f_equal. apply cnt_perm. apply (Permutation_rev [z; y; x]). }
      assert (CR' : cnt w (pars g' a) = cnt w rest) by (rewrite ga_node0, cnt_app; cbn [count_occ]; destruct (Nat.eq_dec (length g) w); lia).
      rewrite CR, CR'. destruct (in_dec Nat.eq_dec w [x; y; z]) as [I|I].
      + destruct (in_dec Nat.eq_dec w cons') as [_|N]; [|exfalso; apply N; unfold cons'; cbn in I |- *; tauto].
        rewrite <- !app_assoc, <- repeat_app. 
        assert (Y : Permutation (kids g w ++ repeat a (if in_dec Nat.eq_dec w cons then (cnt w rest + m)%nat else O)) (without a (kids g w) ++ repeat a (cnt w rest + m))).
        { destruct (in_dec Nat.eq_dec w cons) as [J|J].
          - rewrite without_none by (apply HC, J). reflexivity.
          - cbn [repeat]. rewrite app_nil_r. rewrite (without_perm a (kids g w)) at 1. apply Permutation_app_head.
            assert (L : cnt a (kids g w) = cnt w (pars g a)); [|rewrite L, CR; reflexivity].
            pose proof (fg_links _ _ _ _ _ _ _ _ _ _ _ F w a (conj Pw Bw) Ha) as FL. unfold vk, pa in FL. destruct (in_dec Nat.eq_dec w cons); [contradiction|]. cbn [repeat] in FL. rewrite app_nil_r in FL. apply FL.
            apply Hp. rewrite ga_parents0. apply in_or_app. right. cbn in I |- *. tauto. }
        rewrite (app_assoc (kids g w)), Y, <- app_assoc. apply Permutation_app_head, Permutation_app_comm.
      + assert (M0 : m = O) by (apply cnt_out, I). rewrite M0. cbn [repeat]. rewrite !app_nil_r, Nat.add_0_r. apply Permutation_app_head.
        replace (if in_dec Nat.eq_dec w cons' then cnt w rest else O) with (if in_dec Nat.eq_dec w cons then cnt w rest else O); [reflexivity|].
        destruct (in_dec Nat.eq_dec w cons) as [J|J], (in_dec Nat.eq_dec w cons') as [J'|J']; try reflexivity; unfold cons' in J'; cbn [In] in *; tauto.
    - unfold vk. rewrite (proj2 ga_merger0). destruct (in_dec Nat.eq_dec (length g) cons') as [I|I]; [apply HC' in I; lia|reflexivity]. }
  eexists _, _. split; [constructor; assumption|]. split; [|exact HC']. rewrite ga_length0. eapply fg_ext; [|exact X]. intros w Hw. unfold mg_pars, pa. destruct (Nat.eqb_spec w a) as [->|N]; [symmetry; exact ga_node0|].
  destruct (Nat.eqb_spec w (length g)) as [->|N2]; [symmetry; apply ga_merger0|]. symmetry. apply ga_pars0; [destruct Hw; lia|exact N].
Qed.

Section Loop.
Variables (Q : nat -> Prop) (h : heap Qc) (a cap : nat).
Hypothesis Oa : old h0 P a.
Hypothesis Cap : (2 <= cap)%nat.
Let L0 := pars h a.
Definition midway (g : heap Qc) (j : nat) (cons : list nat) (M : list nat) : Prop :=
  (exists T B, flow Q (length g) (vk g a cons) (pa g) T B) /\ (forall w, In w cons -> cnt a (kids g w) = O /\ (w < length g)%nat) /\ pars g a = firstn j L0 ++ M /\ (length h <= length g)%nat /\
  Nat.even (length (pars g a)) = Nat.even (length L0) /\
  ((M = [] /\ j = length L0 /\ cons = []) \/
   (j < length L0)%nat /\ (cap < length L0)%nat /\ (cap - 1 <= length (pars g a))%nat /\ exists c, M = [c] /\ (length h <= c < length g)%nat /\ ~ In c cons /\ forall w, In w cons -> In w (skipn j L0) \/ (length h <= w)%nat).

Lemma kept_even n f : (cap < n)%nat -> (f <= cap)%nat -> (cap - 1 <= f)%nat -> Nat.even f = Nat.even n -> kept cap n = (f - 1)%nat.
Proof.
  clear - Cap. intros H1 H2 H3 E. unfold kept. rewrite (proj2 (Nat.leb_gt n cap) H1). rewrite Nat.even_sub, <- E by lia. destruct (Nat.eq_dec f cap) as [->|N]; [rewrite Bool.eqb_reflx; reflexivity|].
  replace cap with (S f) at 1 by lia. rewrite Nat.even_succ, <- Nat.negb_even. destruct (Nat.even f); cbn; lia.
Qed.
Lemma midway_step g j cons M g' : midway g j cons M -> (cap < length (pars g a))%nat -> merge_three g a = Ok g' -> exists j' cons' M', midway g' j' cons' M' /\ (length (pars g' a) + 2 = length (pars g a))%nat.
Proof.
  intros ((T & B & F) & HC & EP & LH & EV & Sh) Lc E. destruct (merge_three_flow Q g g' a cons T B F Oa HC E) as (x & y & z & rest & T' & B' & G & F' & HC'). destruct G.
  assert (Len : (length (pars g' a) + 2 = length (pars g a))%nat) by (rewrite ga_node0, ga_parents0, !app_length; cbn; lia).
  assert (Ev' : Nat.even (length (pars g' a)) = Nat.even (length L0)) by (rewrite <- EV, <- Len, Nat.even_add; change (Nat.even 2) with true; destruct (Nat.even (length (pars g' a))); reflexivity).
  assert (Keep : forall k, (k <= length L0)%nat -> (length rest <= k)%nat -> forall t, rest ++ t = firstn k L0 -> rest = firstn (length rest) L0 /\ incl t (skipn (length rest) L0)).
  { intros k Hk Hr t Et. assert (R1 : rest = firstn (length rest) L0).
    { transitivity (firstn (length rest) (rest ++ t)); [rewrite firstn_app, firstn_all, Nat.sub_diag; cbn; rewrite app_nil_r; reflexivity|]. rewrite Et, firstn_firstn. f_equal. lia. }
    split; [exact R1|]. intros w I. assert (Et' : firstn k L0 = firstn (length rest) L0 ++ t) by (rewrite <- Et, <- R1; reflexivity).
    assert (Es : skipn (length rest) (firstn k L0) = t) by (rewrite Et', skipn_app, firstn_length, skipn_all2 by (rewrite firstn_length; lia); cbn [app]; replace (length rest - Nat.min (length rest) (length L0))%nat with O by lia; reflexivity).
    rewrite <- Es, skipn_firstn_comm in I. rewrite <- (firstn_skipn (k - length rest) (skipn (length rest) L0)). apply in_or_app. left. exact I. }
  exists (length rest), (x :: y :: z :: cons), [length g].
  assert (Base : midway g' (length rest) (x :: y :: z :: cons) [length g] /\ (length (pars g' a) + 2 = length (pars g a))%nat); [|exact Base]. split; [|exact Len].
  assert (Nl : ~ In (length g) (x :: y :: z :: cons)) by (intros I; apply HC' in I; lia).
  assert (CapL : (cap - 1 <= length (pars g' a))%nat) by lia.
  destruct Sh as [(-> & -> & ->)|(Hj & HL & _ & c & -> & Hc & Nc & Sk)].
  - rewrite app_nil_r, firstn_all in EP.
    destruct (Keep (length L0) (le_n _)) with (t := [z; y; x]) as [K1 K2]; [rewrite <- EP, ga_parents0, app_length; lia|rewrite firstn_all, <- EP; symmetry; exact ga_parents0|].
    split; [exists T', B'; exact F'|]. split; [intros w I; destruct (HC' w I); split; [assumption|lia]|]. split; [rewrite <- K1; exact ga_node0|]. split; [lia|]. split; [exact Ev'|]. right.
    assert (LR : (length rest + 3 = length L0)%nat) by (rewrite <- EP, ga_parents0, app_length; cbn; lia).
    split; [lia|]. split; [rewrite <- EP; exact Lc|]. split; [exact CapL|]. exists (length g). split; [reflexivity|]. split; [lia|]. split; [exact Nl|]. intros w [<-|[<-|[<-|[]]]]; left; apply K2; cbn; auto.
  - assert (EQ : rest ++ [z; y] = firstn j L0 /\ x = c).
    { apply app_inj_tail. rewrite <- EP, ga_parents0, <- app_assoc. reflexivity. } destruct EQ as [EQ ->].
    assert (LR : (length rest + 2 = j)%nat) by (apply (f_equal (@length nat)) in EQ; rewrite app_length, firstn_length in EQ; cbn in EQ; lia).
    destruct (Keep j ltac:(lia) ltac:(lia) [z; y] EQ) as [K1 K2].
    split; [exists T', B'; exact F'|]. split; [intros w I; destruct (HC' w I); split; [assumption|lia]|]. split; [rewrite <- K1; exact ga_node0|]. split; [lia|]. split; [exact Ev'|]. right.
    split; [lia|]. split; [exact HL|]. split; [exact CapL|]. exists (length g). split; [reflexivity|]. split; [lia|]. split; [exact Nl|]. intros w [<-|[<-|[<-|I]]]; [right; lia|left; apply K2; cbn; auto|left; apply K2; cbn; auto|].
    destruct (Sk w I) as [J|J]; [left|right; exact J]. rewrite <- (firstn_skipn (j - length rest) (skipn (length rest) L0)). apply in_or_app. right. rewrite skipn_skipn. replace (j - length rest + length rest)%nat with j by lia. exact J.
Qed.
Lemma midway_loop : forall fuel g g' j cons M, midway g j cons M -> merge_loop fuel (Z.of_nat cap) g a = Ok g' -> exists j' cons' M', midway g' j' cons' M' /\ (length (pars g' a) <= cap)%nat.
Proof.
  induction fuel as [|fuel IH]; intros g g' j cons M W E; cbn [merge_loop] in E; destruct (Z.leb_spec (Z.of_nat (length (pars g a))) (Z.of_nat cap)) as [L|L]; try discriminate.
  - injection E as <-. exists j, cons, M. split; [exact W|lia].
  - injection E as <-. exists j, cons, M. split; [exact W|lia].
  - destruct (merge_three g a) as [g1|] eqn:E1; [|discriminate]. cbn [bind] in E. destruct (midway_step g j cons M g1 W ltac:(lia) E1) as (j' & cons' & M' & W' & _). apply (IH g1 g' j' cons' M' W' E).
Qed.

Lemma merge_flow g u T B : flow Q (length h) (ki h) (pa h) T B -> expand_merge h a (Z.of_nat cap) = Ok (g, u) ->
  (forall w, In w (firstn (kept cap (length L0)) L0) -> ~ In w (skipn (kept cap (length L0)) L0)) ->
  (exists T' B', flow Q (length g) (ki g) (pa g) T' B') /\ (length (pars g a) <= cap)%nat /\ Nat.even (length (pars g a)) = Nat.even (length L0) /\
  exists M, pars g a = firstn (kept cap (length L0)) L0 ++ M /\ (length M <= 1)%nat /\ (M = [] -> (length L0 <= cap)%nat) /\ forall c, In c M -> (length h <= c)%nat.
Proof.
  intros F E NT. unfold expand_merge in E. destruct (merge_loop _ _ _ _) as [g1|] eqn:E1; [|discriminate]. cbn [bind] in E. injection E as <- _.
  assert (W0 : midway h (length L0) [] []).
  { split; [exists T, B|]. 
    - apply (fg_perm h0 P roots pend total Roots0 Q (length h) (ki h)); [|exact F]. intros w _. unfold vk. cbn. rewrite app_nil_r. reflexivity.
    - split; [intros w []|]. split; [rewrite app_nil_r; unfold L0; rewrite firstn_all; reflexivity|]. split; [reflexivity|]. split; [reflexivity|]. left. auto. }
  destruct (midway_loop _ _ _ _ _ _ W0 E1) as (j & cons & M & ((T' & B' & F') & HC & EP & LH & EV & Sh) & Lc). pose proof (fg_len _ _ _ _ _ _ _ _ _ _ _ F) as LL.
  assert (PB : forall w, In w L0 -> (w < length h)%nat) by (intros w I; apply (fg_pars _ _ _ _ _ _ _ _ _ _ _ F a w (old_inside h0 P _ a LL Oa) I)).
  assert (Plain : (forall w, In w cons -> cnt w (pars g1 a) = O) -> exists T' B', flow Q (length g1) (ki g1) (pa g1) T' B').
  { intros Z. exists T', B'. apply (fg_perm h0 P roots pend total Roots0 Q (length g1) (vk g1 a cons)); [|exact F']. intros w _. unfold vk. destruct (in_dec Nat.eq_dec w cons) as [I|_]; [rewrite (Z w I)|]; cbn; rewrite app_nil_r; reflexivity. }
  destruct Sh as [(-> & -> & ->)|(Hj & HL & Cl & c & -> & Hc & Nc & Sk)].
  - split; [apply Plain; intros w []|]. split; [exact Lc|]. split; [exact EV|]. exists []. rewrite app_nil_r in *. rewrite firstn_all in EP. split; [|split; [cbn; lia|split; [intros _; rewrite <- EP; exact Lc|intros c []]]]. unfold kept. rewrite (proj2 (Nat.leb_le _ _)) by (rewrite <- EP; exact Lc). rewrite firstn_all. exact EP.
  - assert (LJ : length (pars g1 a) = S j) by (rewrite EP, app_length, firstn_length; cbn; lia).
    assert (KJ : kept cap (length L0) = j) by (rewrite (kept_even (length L0) (S j)); [lia|exact HL|lia|lia|rewrite <- LJ; exact EV]).
    rewrite KJ in *. split; [|split; [exact Lc|split; [exact EV|exists [c]; split; [exact EP|split; [cbn; lia|split; [discriminate|intros w [<-|[]]; lia]]]]]].
    apply Plain. intros w I. rewrite EP. apply cnt_out. intros J. apply in_app_or in J. destruct J as [J|[<-|[]]]; [|contradiction].
    destruct (Sk w I) as [K|K]; [apply (NT w J K)|]. assert (Iw : In w L0) by (rewrite <- (firstn_skipn j L0); apply in_or_app; left; exact J). apply PB in Iw. lia.
Qed.
End Loop.
End Merging.
