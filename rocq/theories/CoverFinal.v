(** The expansion of a network expands every node: no tag is left. *)
From Verif Require Import Base BaseLemmas Cost CostSpec CostProofs Utils Fractions FractionsProofs Load Tree TreeSpec HeapLemmas Expand ExpandSpec LevelProofs ExpandProofs
  FrameProofs MergeProofs LocalProofs MergeSafe TraverseSafe SavedSpec SavedProofs Conclude FlowSpec FlowProofs FlowMerge FlowOps FlowWalk FlowStart
  CoverWalk CoverOps CoverTree CoverSplit CoverInv.
From Coq Require Import QArith Qcanon.
Open Scope Z_scope.

(** ** walks that only change levels *)
Lemma visit_alike {S} (f : heap Qc -> nat -> S -> res (heap Qc * S)) (F : forall h a s h' s', f h a s = Ok (h', s') -> alike h h') :
  forall fuel h seen s a h' seen' s', visit fuel f h seen s a = Ok (h', seen', s') -> alike h h'.
Proof.
  induction fuel as [|fuel IH]; intros h seen s a h' seen' s' E; [discriminate|]. cbn [visit] in E.
  destruct (nat_in a seen); [injection E as <- _ _; apply alike_refl|].
  destruct (f h a s) as [[g s1]|e] eqn:Ef; [|discriminate]. cbn [bind] in E. apply F in Ef.
  assert (X : forall l g sn s2 h' seen' s', fold_res (fun st c => let '(h, seen, s) := st in if nat_in c seen then Ok st else visit fuel f h seen s c) l (g, sn, s2) = Ok (h', seen', s') -> alike g h').
  { clear -IH. induction l as [|c l IHl]; intros g sn s2 h' seen' s' E; cbn [fold_res] in E; [injection E as <- _ _; apply alike_refl|].
    destruct (nat_in c sn); cbn [bind] in E; [apply (IHl _ _ _ _ _ _ E)|]. destruct (visit fuel f g sn s2 c) as [[[g1 sn1] s3]|e] eqn:Ev; [|discriminate]. cbn [bind] in E.
    apply (alike_trans _ _ _ (IH _ _ _ _ _ _ _ Ev) (IHl _ _ _ _ _ _ E)). }
  apply (alike_trans _ _ _ Ef (X _ _ _ _ _ _ _ E)).
Qed.
Lemma visit_all_alike {S} (f : heap Qc -> nat -> S -> res (heap Qc * S)) (F : forall h a s h' s', f h a s = Ok (h', s') -> alike h h') fuel h s roots h' s' :
  visit_all fuel f h s roots = Ok (h', s') -> alike h h'.
Proof.
  unfold visit_all. intros E.
  assert (X : forall l g sn s h' sn' s', fold_res (fun st r => let '(h, seen, s) := st in visit fuel f h seen s r) l (g, sn, s) = Ok (h', sn', s') -> alike g h').
  { induction l as [|c l IHl]; intros g sn s2 h2 sn' s3 E2; cbn [fold_res] in E2; [injection E2 as <- _ _; apply alike_refl|].
    destruct (visit fuel f g sn s2 c) as [[[g1 sn1] s4]|e] eqn:Ev; [|discriminate]. cbn [bind] in E2. apply (alike_trans _ _ _ (visit_alike f F _ _ _ _ _ _ _ _ Ev) (IHl _ _ _ _ _ _ E2)). }
  destruct (fold_res _ roots (h, [], s)) as [[[g sn] s1]|e] eqn:Ef; [|discriminate]. cbn [bind] in E. injection E as <- _. apply (X _ _ _ _ _ _ _ Ef).
Qed.
Lemma tag_alike t k h a s h' s' : tag_levels_step t k h a s = Ok (h', s') -> alike h h'.
Proof. unfold tag_levels_step. destruct (level_of h a) as [l|e]; [|discriminate]. cbn [bind]. intros [= <- _]. destruct (t <=? l); [apply alike_upd; auto|apply alike_refl]. Qed.
Lemma apply_alike h a s h' s' : apply_levels_step h a s = Ok (h', s') -> alike h h'.
Proof. unfold apply_levels_step. destruct (level_of h a) as [l|e]; [|discriminate]. cbn [bind]. intros [= <- _]. apply alike_upd; auto. Qed.
Lemma expand_roots_alike fuel h roots h' : expand_roots fuel h roots = Ok h' -> exists us h1 us1, expand_all fuel h [] roots us = Ok (h1, us1) /\ alike h1 h'.
Proof.
  unfold expand_roots. destruct (visit_all fuel min_level_step h _ _) as [[h0 m]|e]; [|discriminate]. cbn [bind].
  destruct (expand_all fuel h [] roots _) as [[h1 us1]|e] eqn:E; [|discriminate]. cbn [bind]. exists [(1, 1 - m)], h1, us1. split; [exact E|].
  match type of H with bind ?f _ = _ => destruct f as [h2|e] eqn:E2; [|discriminate] end. cbn [bind] in H.
  assert (A2 : alike h1 h2).
  { clear -E2. revert h1 E2. induction us1 as [|u us IH]; intros h1 E2; cbn [fold_res] in E2; [injection E2 as <-; apply alike_refl|].
    destruct (visit_all fuel _ h1 tt roots) as [[g []]|e] eqn:Ev; [|discriminate]. cbn [bind] in E2.
    apply (alike_trans _ g); [|apply IH, E2]. revert Ev. apply visit_all_alike. intros x a s x' s'. apply tag_alike. }
  destruct (visit_all fuel apply_levels_step h2 tt roots) as [[h3 []]|e] eqn:E3; [|discriminate]. cbn [bind] in H. injection H as <-.
  apply (alike_trans _ _ _ A2). revert E3. apply visit_all_alike. exact apply_alike.
Qed.

Section Covered.
Variables (h : heap Z) (t : tree Z) (vals : list Z) (g : heap Qc).
Hypothesis N : network h t vals.
Hypothesis Lv : levelled h t.
Hypothesis Tg : forall a, in_tree h t a -> tagged h a.
Hypothesis Same : forall a, in_tree h t a -> (a < length g)%nat /\ get g a = node_frac (get h a).
Hypothesis Ov : forall a, in_tree h t a -> ~ overloaded h a.
Hypothesis Half : forall a c, in_tree h t a -> In (TExtract c) (n_expands (get h a)) -> 2 * c < value h a.
Notation H := (start t g).
Notation P := (part h t g).
Notation old := (old H P).

Definition depth (y : nat) : nat := match TreeSpec.level h y with Some l => Z.to_nat l | None => O end.

Lemma network_covered n h' : expand_roots n H (t_roots t) = Ok h' -> forall x, P x -> (x < length h')%nat -> n_expands (get h' x) = [].
Proof.
  intros E x Px Lx. destruct (expand_roots_alike _ _ _ _ E) as (us & h1 & us1 & E1 & (Len & Al)). destruct (Al x) as (_ & _ & _ & ->). rewrite Len in Lx.
  assert (IN := old_in h t g Same).
  refine (all_covered H P _ _ _ _ _ _ _ _ _ _ _ _ _ depth _ (t_roots t) _ _ n us h1 us1 E1 x (conj Px Lx)).
  - intros y B. right. exact B.
  - intros y O. apply (H_level h t g Lv Same), IN, O.
  - intros y O. change (n_value (get H y)) with (val H y). rewrite (st_val h t g Same) by exact O. rewrite <- foz_0. apply (proj1 (foz_le _ _)). apply Z.lt_le_incl, (st_pos h t vals g N Same y O).
  - intros y c O I. rewrite (st_kids h t g Same) in I by exact O. apply (st_kid h t g Same y c O I).
  - intros y c O I. rewrite (st_pars h t g Same) in I by exact O. apply (st_par h t vals g N Same y c O I).
  - intros y c O1 O2. rewrite (st_kids h t g Same), (st_pars h t g Same) by assumption. apply (st_links h t vals g N Same); assumption.
  - intros y u O. apply (network_ready h t vals g N Tg Same); [|apply Ov]; apply IN, O.
  - intros y O. rewrite (st_tags h t g Same) by exact O. apply one_op, Tg, IN, O.
  - intros y u c O I Ou J. rewrite (st_tags h t g Same) in I by exact O. rewrite (st_kids h t g Same) in J by exact O. rewrite (st_pars h t g Same) by (apply (st_kid h t g Same y c O J)).
    apply (st_alone h t vals g N Tg Same y c O); [apply (st_op h t g Tg Same y u O I Ou)|exact J].
  - intros y c v O I Ev. rewrite (st_tags h t g Same) in I by exact O. change (n_value (get H y)) with (val H y) in Ev. rewrite (st_val h t g Same) in Ev by exact O. apply foz_inj in Ev. subst v. apply Half; [apply IN, O|exact I].
  - intros y k O I. rewrite (st_tags h t g Same) in I by exact O. destruct (st_own h t g Tg Same y O) as (own & Eo & Fo & _). rewrite Eo in I. apply in_app_or in I. destruct I as [I|I].
    + destruct (3 <? length (parents h y))%nat; [destruct I as [[= <-]|[]]; reflexivity|destruct I].
    + destruct Fo as [->|(u & -> & Ou)]; [destruct I|]. destruct I as [->|[]]. discriminate.
  - intros y O I. rewrite (st_pars h t g Same) in I by exact O. apply (st_loop h t g Lv Tg Same y O). apply (st_links h t vals g N Same y y O O), I.
  - intros p c f O B Ne. rewrite (st_kids h t g Same) in B by exact O. destruct (before_in _ _ _ B) as [I1 I2]. rewrite (st_pars h t g Same) by (apply (st_kid h t g Same p c O I1)).
    apply (st_alone h t vals g N Tg Same p c O); [|exact I1]. destruct (children h p) as [|a [|b l]]; [destruct I1| |cbn; lia]. destruct I1 as [->|[]], I2 as [->|[]]. destruct Ne; reflexivity.
  - intros y p O I. rewrite (st_pars h t g Same) in I by exact O. pose proof (st_par h t vals g N Same y p O I) as Op. assert (J : In y (children h p)) by (apply (st_links h t vals g N Same p y Op O), I).
    destruct (lev_edges _ _ Lv p y (proj1 (IN p) Op) J) as (l1 & l2 & E2 & E3 & Lt). unfold depth. rewrite E2, E3.
    destruct (lev_inner _ _ Lv p (proj1 (IN p) Op)) as (l & E4 & B); [|assert (l = l1) by congruence; lia].
    intros K. apply (net_open _ _ _ N) in K. destruct K as (_ & K). rewrite K in J. destruct J.
  - intros r I. assert (O : old r) by (apply IN; exists r; split; [exact I|constructor]). split; [exact O|]. rewrite (st_pars h t g Same) by exact O. apply (net_top _ _ _ N r); [apply IN, O|exact I].
  - intros y O Ey. rewrite (st_pars h t g Same) in Ey by exact O. apply (net_top _ _ _ N y); [apply IN, O|exact Ey].
Qed.
Lemma covered_reached n h' : expand_roots n H (t_roots t) = Ok h' -> forall x, reached (fun x => n_children (get h' x)) (t_roots t) x -> n_expands (get h' x) = [].
Proof.
  intros E. assert (New : forall x, (length H <= x)%nat -> P x) by (intros x B; right; exact B).
  assert (Rt : Forall P (t_roots t)) by (apply Forall_forall; intros r I; left; exists r; split; [exact I|constructor]).
  assert (F0 : fr H P H).
  { constructor; [lia| |reflexivity]. intros a b [Ia|Ba] L.
    - left. assert (O : old a) by (apply (old_in h t g Same), Ia). destruct L as [L|L]; [change (In b (kids H a)) in L; rewrite (st_kids h t g Same) in L by exact O; apply (child_in h t a b Ia L)|].
      change (In b (pars H a)) in L. rewrite (st_pars h t g Same) in L by exact O. apply (net_parents _ _ _ N a b Ia L).
    - rewrite get_beyond in L by exact Ba. destruct L as [[]|[]]. }
  pose proof (fr_expand H P New _ _ _ _ F0 Rt E) as F. rewrite Forall_forall in Rt.
  assert (Rp : forall x, reached (fun x => n_children (get h' x)) (t_roots t) x -> P x).
  { induction 1 as [r I|x y _ IH I]; [apply Rt, I|apply (fr_child _ _ _ _ _ F IH I)]. }
  intros x Rx. apply Rp in Rx. destruct (Nat.lt_ge_cases x (length h')) as [B|B]; [apply (network_covered n h' E x Rx B)|rewrite get_beyond by exact B; reflexivity].
Qed.
End Covered.
