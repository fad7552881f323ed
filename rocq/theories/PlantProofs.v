(** Where the nodes of the target groups lie after [plant] (Conclude.v). *)
From Verif Require Import Base BaseLemmas Cost Utils Fractions Load LoadSpec LoadProofs Tree TreeSpec HeapLemmas Search Expand Conclude.
Open Scope Z_scope.

Notation sizes gs := (list_sum (map gsize gs)).
Lemma flat_eq v ts cs a ps : flat a ps (GNode v ts cs) = MkNode v a None fl_new ps (starts (S a) cs) ts 0 :: flats (S a) [a] cs.
Proof.
  cbn [flat]. f_equal. generalize (S a) as b. induction cs as [|c cs IH]; intros b; [reflexivity|]. cbn [flats]. f_equal. apply IH.
Qed.
Lemma gsize_eq g : gsize g = S (sizes (gchildren g)).
Proof. destruct g. reflexivity. Qed.
(** the node of [g] at [a] with parents [p] *)
Definition gn (a : nat) (p : list nat) (g : gnode) : node Z := MkNode (gvalue g) a None fl_new p (starts (S a) (gchildren g)) (gtags g) 0.
Lemma flat_gn a ps g : flat a ps g = gn a ps g :: flats (S a) [a] (gchildren g).
Proof. destruct g. apply flat_eq. Qed.
Lemma flats_length : forall n b ps gs, (sizes gs <= n)%nat -> length (flats b ps gs) = sizes gs.
Proof.
  induction n as [|n IH]; intros b ps [|g r] H; try reflexivity; cbn [map list_sum fold_right] in H; fold (sizes r) in H; pose proof (gsize_eq g); [lia|].
  cbn [flats]. rewrite app_length, flat_gn. cbn [length]. rewrite !IH by lia. cbn [map list_sum fold_right]. fold (sizes r). lia.
Qed.

(** [g] lies at [a], with parents [p], in the forest [gs] laid out from [b], the
    tops of which have parents [ps] *)
Inductive placed : nat -> list nat -> list gnode -> nat -> gnode -> list nat -> Prop :=
| pl_here b ps g r : placed b ps (g :: r) b g ps
| pl_next b ps g r a x p : placed (b + gsize g) ps r a x p -> placed b ps (g :: r) a x p
| pl_deep b ps g r a x p : placed (S b) [b] (gchildren g) a x p -> placed b ps (g :: r) a x p.

Lemma placed_range b ps gs a g p : placed b ps gs a g p -> (b <= a /\ a + gsize g <= b + sizes gs)%nat.
Proof.
  induction 1 as [b ps g r|b ps g r a x p H IH|b ps g r a x p H IH]; cbn [map list_sum fold_right]; fold (sizes r).
  - lia.
  - lia.
  - pose proof (gsize_eq g). lia.
Qed.
Lemma placed_nth b ps gs a g p : placed b ps gs a g p -> nth_error (flats b ps gs) (a - b) = Some (gn a p g).
Proof.
  induction 1 as [b ps g r|b ps g r a x p H IH|b ps g r a x p H IH]; cbn [flats].
  - rewrite Nat.sub_diag, flat_gn. reflexivity.
  - destruct (placed_range _ _ _ _ _ _ H) as [R _]. assert (L : length (flat b ps g) = gsize g).
    { rewrite flat_gn, gsize_eq. cbn [length]. rewrite (flats_length (sizes (gchildren g))) by lia. reflexivity. }
    rewrite nth_error_app2 by (rewrite L; lia). rewrite L. rewrite <- IH. f_equal. lia.
  - destruct (placed_range _ _ _ _ _ _ H) as [R _]. rewrite flat_gn. replace (a - b)%nat with (S (a - S b)) by lia. cbn [app nth_error].
    rewrite nth_error_app1; [exact IH|]. apply nth_error_Some. rewrite IH. discriminate.
Qed.
Lemma placed_total : forall n b ps gs a, (sizes gs <= n)%nat -> (b <= a < b + sizes gs)%nat -> exists g p, placed b ps gs a g p.
Proof.
  induction n as [|n IH]; intros b ps [|g r] a Hn Ha; try (cbn in Ha; lia); cbn [map list_sum fold_right] in *; fold (sizes r) in *; pose proof (gsize_eq g) as Hg; [lia|].
  destruct (Nat.eq_dec a b) as [->|Na]; [exists g, ps; constructor|].
  destruct (Nat.lt_ge_cases a (b + gsize g)) as [C|C].
  - destruct (IH (S b) [b] (gchildren g) a) as (x & p & H); [lia|lia|]. exists x, p. apply pl_deep, H.
  - destruct (IH (b + gsize g)%nat ps r a) as (x & p & H); [lia|lia|]. exists x, p. apply pl_next, H.
Qed.

Notation tops b gs := (combine (starts b gs) gs).
Lemma starts_length b gs : length (starts b gs) = length gs.
Proof. revert b. induction gs as [|g r IH]; intros b; [reflexivity|]. cbn. rewrite IH. reflexivity. Qed.
Lemma starts_in b gs x : In x (starts b gs) -> exists g, In (x, g) (tops b gs).
Proof.
  revert b. induction gs as [|g r IH]; intros b H; [destruct H|]. cbn [starts combine In] in *. destruct H as [<-|H]; [eauto|]. destruct (IH _ H). eauto.
Qed.
Lemma tops_in b gs x g : In (x, g) (tops b gs) -> In x (starts b gs) /\ In g gs.
Proof. intros H. split; [eapply in_combine_l, H|eapply in_combine_r, H]. Qed.
Lemma starts_ge b gs x : In x (starts b gs) -> (b <= x)%nat.
Proof. revert b. induction gs as [|g r IH]; intros b H; [destruct H|]. cbn in H. destruct H as [->|H]; [lia|]. apply IH in H. lia. Qed.
Lemma starts_nd b gs : NoDup (starts b gs).
Proof.
  revert b. induction gs as [|g r IH]; intros b; cbn [starts]; constructor; [|apply IH]. intros H. apply starts_ge in H. pose proof (gsize_eq g). lia.
Qed.
Lemma tops_fst b gs : map fst (tops b gs) = starts b gs.
Proof. revert b. induction gs as [|g r IH]; intros b; [reflexivity|]. cbn. rewrite IH. reflexivity. Qed.
Lemma tops_snd b gs : map snd (tops b gs) = gs.
Proof. revert b. induction gs as [|g r IH]; intros b; [reflexivity|]. cbn. rewrite IH. reflexivity. Qed.
Lemma placed_top b ps gs x g : In (x, g) (tops b gs) -> placed b ps gs x g ps.
Proof.
  revert b. induction gs as [|k r IH]; intros b H; [destruct H|]. cbn [starts combine In] in H. destruct H as [E|H]; [injection E as <- <-; constructor|]. apply pl_next, IH, H.
Qed.
Lemma placed_child b ps gs a g p x c : placed b ps gs a g p -> In (x, c) (tops (S a) (gchildren g)) -> placed b ps gs x c [a].
Proof.
  induction 1 as [b ps g r|b ps g r a k p H IH|b ps g r a k p H IH]; intros I.
  - apply pl_deep, placed_top, I.
  - apply pl_next, IH, I.
  - apply pl_deep, IH, I.
Qed.
Lemma placed_parent b ps gs a g p : placed b ps gs a g p ->
  (p = ps /\ In (a, g) (tops b gs)) \/
  exists q gq pq, p = [q] /\ placed b ps gs q gq pq /\ In (a, g) (tops (S q) (gchildren gq)).
Proof.
  induction 1 as [b ps g r|b ps g r a x p H IH|b ps g r a x p H IH].
  - left. split; [reflexivity|left; reflexivity].
  - destruct IH as [[-> I]|(q & gq & pq & -> & Hq & I)]; [left; split; [reflexivity|right; exact I]|]. right. exists q, gq, pq. split; [reflexivity|]. split; [apply pl_next, Hq|exact I].
  - right. destruct IH as [[-> I]|(q & gq & pq & -> & Hq & I)].
    + exists b, g, ps. split; [reflexivity|]. split; [constructor|exact I].
    + exists q, gq, pq. split; [reflexivity|]. split; [apply pl_deep, Hq|exact I].
Qed.
Lemma placed_folded b ps gs a g p : placed b ps gs a g p -> Forall folded gs -> folded g.
Proof.
  induction 1 as [b ps g r|b ps g r a x p H IH|b ps g r a x p H IH]; intros F; inversion F as [|? ? Fg Fr]; subst.
  - exact Fg.
  - apply IH, Fr.
  - apply IH. inversion Fg; subst; cbn [gchildren]; [constructor|apply Forall_forall; assumption].
Qed.
Lemma gleaves_children g v : In v (flat_map gleaves (gchildren g)) -> In v (gleaves g).
Proof. destruct g as [w ts [|c cs]]; [intros []|]. cbn [gchildren]. rewrite gleaves_node by discriminate. exact id. Qed.
Lemma placed_leaves b ps gs a g p v : placed b ps gs a g p -> In v (gleaves g) -> In v (flat_map gleaves gs).
Proof.
  induction 1 as [b ps g r|b ps g r a x p H IH|b ps g r a x p H IH]; intros I; cbn [flat_map]; apply in_app_iff.
  - left. exact I.
  - right. apply IH, I.
  - left. apply gleaves_children, IH, I.
Qed.
Lemma gleaves_not_nil g : folded g -> gleaves g <> [].
Proof.
  induction 1 as [v|w cs L E F IH]; [discriminate|]. destruct cs as [|c cs]; [cbn in L; lia|]. rewrite gleaves_node by discriminate. cbn [flat_map].
  intros H. apply app_eq_nil in H. apply (IH c); [left; reflexivity|apply H].
Qed.
Lemma gvalue_pos g : folded g -> (forall v, In v (gleaves g) -> 0 < v) -> 0 < gvalue g.
Proof.
  intros F P. rewrite (folded_sum g F). pose proof (gleaves_not_nil g F) as N. destruct (gleaves g) as [|v l]; [congruence|].
  cbn [zsum fold_right]. specialize (zsum_nonneg l) as Z. assert (0 < v) by (apply P; left; reflexivity).
  assert (0 <= zsum l) by (apply Z, Forall_forall; intros x I; apply P; right; exact I). unfold zsum in *. cbn [fold_right]. lia.
Qed.

(** in the heap *)
Section Plant.
Variables (h0 : heap Z) (gs : list gnode).
Let n0 := length h0.
Let hp := fst (plant h0 gs).
Definition in_forest (a : nat) (g : gnode) (p : list nat) : Prop := placed n0 [] gs a g p.
Lemma plant_length : length hp = (n0 + sizes gs)%nat.
Proof. unfold hp, plant. cbn [fst]. rewrite app_length, (flats_length (sizes gs)) by lia. reflexivity. Qed.
Lemma plant_old a : (a < n0)%nat -> get hp a = get h0 a.
Proof. intros B. apply get_app_l, B. Qed.
Lemma plant_get a g p : in_forest a g p -> get hp a = gn a p g.
Proof.
  intros H. destruct (placed_range _ _ _ _ _ _ H) as [R _]. unfold hp, plant. cbn [fst]. rewrite get_app_r by exact R. fold n0. unfold get. apply nth_error_nth, placed_nth, H.
Qed.
Lemma plant_in a : (n0 <= a < length hp)%nat -> exists g p, in_forest a g p.
Proof. rewrite plant_length. intros B. apply (placed_total (sizes gs)); [lia|exact B]. Qed.
Lemma plant_range a g p : in_forest a g p -> (n0 <= a < length hp)%nat.
Proof. intros H. pose proof (placed_range _ _ _ _ _ _ H). rewrite plant_length. pose proof (gsize_eq g). lia. Qed.
Lemma plant_child a g p x : in_forest a g p -> In x (children hp a) -> exists c, In (x, c) (tops (S a) (gchildren g)) /\ in_forest x c [a].
Proof.
  intros H I. unfold children in I. rewrite (plant_get a g p H) in I. apply starts_in in I. destruct I as (c & I). exists c. split; [exact I|]. apply (placed_child _ _ _ _ _ _ _ _ H I).
Qed.
Lemma plant_parents a g p : in_forest a g p -> parents hp a = p.
Proof. intros H. unfold parents. rewrite (plant_get a g p H). reflexivity. Qed.
Lemma plant_up a g p : in_forest a g p ->
  (p = [] /\ In a (snd (plant h0 gs))) \/ exists q gq pq, p = [q] /\ in_forest q gq pq /\ In a (children hp q) /\ ~ In a (snd (plant h0 gs)).
Proof.
  intros H. destruct (placed_parent _ _ _ _ _ _ H) as [[-> I]|(q & gq & pq & -> & Hq & I)]; [left; split; [reflexivity|apply tops_in in I; apply I]|].
  right. exists q, gq, pq. split; [reflexivity|]. split; [exact Hq|]. split.
  - unfold children. rewrite (plant_get q gq pq Hq). apply tops_in in I. apply I.
  - intros T. unfold plant in T. cbn [snd] in T. apply starts_in in T. destruct T as (k & T). apply (placed_top _ []) in T.
    pose proof (plant_get _ _ _ T) as E1. rewrite (plant_get _ _ _ H) in E1. discriminate E1.
Qed.
End Plant.
