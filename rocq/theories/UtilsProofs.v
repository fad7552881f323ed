(** Lemmas about the utility functions (C07, C15-C19). *)
From Verif Require Import Base BaseLemmas Utils UtilsSpec.
From Coq Require Import ZifyBool ZifyNat.
Open Scope Z_scope.

Section Eq.
Context {A : Type} (eqb : A -> A -> bool) (Heq : eq_decides eqb).

Lemma eqb_refl x : eqb x x = true.
Proof. apply Heq. reflexivity. Qed.
Lemma eqb_false x y : eqb x y = false <-> x <> y.
Proof. destruct (eqb x y) eqn:E; [apply Heq in E|]; split; try congruence.
  intros _ H. apply Heq in H. congruence. Qed.
Lemma eqb_sym x y : eqb x y = eqb y x.
Proof. destruct (eqb x y) eqn:E.
  - apply Heq in E. subst. symmetry. apply eqb_refl.
  - apply eqb_false in E. symmetry. apply eqb_false. congruence. Qed.
Lemma eqb_dec (x y : A) : {x = y} + {x <> y}.
Proof. destruct (eqb x y) eqn:E; [left; apply Heq; exact E|right; apply eqb_false; exact E]. Qed.

Lemma existsb_eqb x l : existsb (eqb x) l = true <-> In x l.
Proof. rewrite existsb_exists. split.
  - intros (y & Hy & E). apply Heq in E. subst. exact Hy.
  - intros H. exists x. split; [exact H|apply eqb_refl]. Qed.
Lemma existsb_eqb_false x l : existsb (eqb x) l = false <-> ~ In x l.
Proof. rewrite <- existsb_eqb. destruct (existsb (eqb x) l); split; congruence. Qed.

(** ** cnt and nub *)
Lemma cnt_nil v : cnt eqb v [] = 0%nat.
Proof. reflexivity. Qed.
Lemma cnt_cons v x l : cnt eqb v (x :: l) = ((if eqb v x then 1 else 0) + cnt eqb v l)%nat.
Proof. unfold cnt. cbn [filter]. destruct (eqb v x); reflexivity. Qed.
Lemma cnt_app v a b : cnt eqb v (a ++ b) = (cnt eqb v a + cnt eqb v b)%nat.
Proof. unfold cnt. rewrite filter_app, app_length. reflexivity. Qed.
Lemma cnt_repeat v x k : cnt eqb v (repeat x k) = if eqb v x then k else 0%nat.
Proof. induction k as [|k IH]; [destruct (eqb v x); reflexivity|].
  cbn [repeat]. rewrite cnt_cons, IH. destruct (eqb v x); reflexivity. Qed.
Lemma cnt_pos v l : (0 < cnt eqb v l)%nat <-> In v l.
Proof. induction l as [|x l IH]; [cbn; lia|]. rewrite cnt_cons. cbn [In].
  destruct (eqb v x) eqn:E.
  - apply Heq in E. subst. split; [auto|lia].
  - apply eqb_false in E. rewrite <- IH. split; [|intros [H|H]]; try lia. congruence. Qed.
Lemma cnt_zero v l : cnt eqb v l = 0%nat <-> ~ In v l.
Proof. rewrite <- cnt_pos. lia. Qed.
Lemma cnt_perm v a b : Permutation a b -> cnt eqb v a = cnt eqb v b.
Proof. induction 1; rewrite ?cnt_cons in *; lia. Qed.
Lemma cnt_occ v l : cnt eqb v l = count_occ eqb_dec l v.
Proof. induction l as [|x l IH]; [reflexivity|]. rewrite cnt_cons. cbn [count_occ].
  destruct (eqb_dec x v) as [->|N]; [rewrite eqb_refl; lia|].
  assert (E : eqb v x = false) by (apply eqb_false; congruence). rewrite E. lia. Qed.
Lemma perm_cnt a b : (forall v, cnt eqb v a = cnt eqb v b) -> Permutation a b.
Proof. intros H. apply (Permutation_count_occ eqb_dec). intros v. rewrite <- !cnt_occ. apply H. Qed.
Lemma cnt_nodup v l : NoDup l -> cnt eqb v l = if existsb (eqb v) l then 1%nat else 0%nat.
Proof. intros N. destruct (existsb (eqb v) l) eqn:E.
  - apply existsb_eqb in E. rewrite cnt_occ. apply NoDup_count_occ'; assumption.
  - apply existsb_eqb_false in E. apply cnt_zero. exact E. Qed.

Lemma nub_in v l : In v (nub eqb l) <-> In v l.
Proof. induction l as [|x l IH]; [reflexivity|]. cbn [nub In]. rewrite filter_In, IH.
  destruct (eqb x v) eqn:E; cbn.
  - apply Heq in E. subst. intuition congruence.
  - apply eqb_false in E. intuition congruence. Qed.
Lemma nub_nodup l : NoDup (nub eqb l).
Proof. induction l as [|x l IH]; [constructor|]. cbn [nub]. constructor.
  - rewrite filter_In, eqb_refl. cbn. intuition congruence.
  - apply NoDup_filter. exact IH. Qed.
Lemma nub_snoc l x : nub eqb (l ++ [x]) = if existsb (eqb x) l then nub eqb l else nub eqb l ++ [x].
Proof. induction l as [|y l IH]; [reflexivity|]. cbn [app nub existsb]. rewrite IH.
  destruct (eqb x y) eqn:E; cbn [orb].
  - destruct (existsb (eqb x) l); [reflexivity|]. rewrite filter_app. cbn [filter].
    rewrite eqb_sym, E. cbn. rewrite app_nil_r. reflexivity.
  - destruct (existsb (eqb x) l); [reflexivity|]. rewrite filter_app. cbn [filter].
    rewrite eqb_sym, E. reflexivity. Qed.

Lemma cnt_flat_map_repeat v (f : A -> nat) ks : NoDup ks ->
  cnt eqb v (flat_map (fun x => repeat x (f x)) ks) = if existsb (eqb v) ks then f v else 0%nat.
Proof. induction ks as [|k ks IH]; intros N; [reflexivity|]. inversion N; subst.
  cbn [flat_map existsb]. rewrite cnt_app, cnt_repeat, IH by assumption.
  destruct (eqb v k) eqn:E; cbn [orb]; [|reflexivity]. apply Heq in E. subst.
  assert (F : existsb (eqb k) ks = false) by (apply existsb_eqb_false; assumption).
  rewrite F. lia. Qed.

Lemma gather_cnt v l : cnt eqb v (gather eqb l) = cnt eqb v l.
Proof. unfold gather. rewrite (cnt_flat_map_repeat v (fun x => cnt eqb x l)) by apply nub_nodup.
  destruct (existsb (eqb v) (nub eqb l)) eqn:E; [reflexivity|].
  apply existsb_eqb_false in E. rewrite nub_in in E. symmetry. apply cnt_zero. exact E. Qed.
Lemma gather_perm l : Permutation (gather eqb l) l.
Proof. apply perm_cnt. intros v. apply gather_cnt. Qed.

(** ** counters *)
Lemma counter_add_map x f ks : NoDup ks ->
  counter_add eqb x (map (fun y => (y, f y)) ks) =
  map (fun y => (y, if eqb x y then S (f y) else f y)) ks
  ++ (if existsb (eqb x) ks then [] else [(x, 1%nat)]).
Proof. induction ks as [|k ks IH]; intros N; [reflexivity|]. inversion N; subst.
  cbn [map counter_add existsb app]. rewrite (eqb_sym k x). destruct (eqb x k) eqn:E; cbn [orb].
  - apply Heq in E. subst. rewrite app_nil_r. f_equal. apply map_ext_in. intros y Hy.
    assert (F : eqb k y = false) by (apply eqb_false; congruence). rewrite F. reflexivity.
  - rewrite IH by assumption. reflexivity. Qed.

Lemma counter_closed l : counter eqb l = map (fun x => (x, cnt eqb x l)) (nub eqb l).
Proof. unfold counter. induction l as [|x l IH] using rev_ind; [reflexivity|].
  rewrite fold_left_app. cbn [fold_left]. rewrite IH, counter_add_map by apply nub_nodup.
  rewrite nub_snoc. 
  assert (E : existsb (eqb x) (nub eqb l) = existsb (eqb x) l).
  { destruct (existsb (eqb x) l) eqn:F.
    - apply existsb_eqb, nub_in, existsb_eqb. exact F.
    - apply existsb_eqb_false. rewrite nub_in. apply existsb_eqb_false. exact F. }
  rewrite E. destruct (existsb (eqb x) l) eqn:F.
  - rewrite app_nil_r. apply map_ext_in. intros y _. rewrite cnt_app, cnt_cons, cnt_nil, (eqb_sym y x).
    destruct (eqb x y); f_equal; lia.
  - rewrite map_app. cbn [map]. f_equal.
    + apply map_ext_in. intros y _. rewrite cnt_app, cnt_cons, cnt_nil, (eqb_sym y x).
      destruct (eqb x y); f_equal; lia.
    + rewrite cnt_app, cnt_cons, cnt_nil, eqb_refl. apply existsb_eqb_false, cnt_zero in F. rewrite F. reflexivity.
Qed.

Lemma counter_get_map x f ks :
  counter_get eqb x (map (fun y => (y, f y)) ks) = if existsb (eqb x) ks then Some (f x) else None.
Proof. induction ks as [|k ks IH]; [reflexivity|]. cbn [map counter_get existsb]. rewrite (eqb_sym k x).
  destruct (eqb x k) eqn:E; cbn [orb]; [|exact IH]. apply Heq in E. subst. reflexivity. Qed.
Lemma counter_set_map x k f ks : NoDup ks ->
  counter_set eqb x k (map (fun y => (y, f y)) ks) = map (fun y => (y, if eqb x y then k else f y)) ks.
Proof. induction ks as [|z ks IH]; intros N; [reflexivity|]. inversion N; subst.
  cbn [map counter_set]. rewrite (eqb_sym z x). destruct (eqb x z) eqn:E; [|rewrite IH by assumption; reflexivity].
  apply Heq in E. subst. f_equal. apply map_ext_in. intros y Hy.
  assert (F : eqb z y = false) by (apply eqb_false; congruence). rewrite F. reflexivity. Qed.

(** ** remove_pairs *)
Lemma remove_pairs_fold ka kb : NoDup ka -> NoDup kb -> forall keys f g,
  NoDup keys -> incl keys ka -> (forall y, ~ In y kb -> g y = 0%nat) ->
  fold_left (remove_pairs_step eqb) keys
    (map (fun x => (x, f x)) ka, map (fun x => (x, g x)) kb) =
  (map (fun x => (x, if existsb (eqb x) keys then (f x - g x)%nat else f x)) ka,
   map (fun x => (x, if existsb (eqb x) keys then (g x - f x)%nat else g x)) kb).
Proof.
  intros Na Nb. induction keys as [|k keys IH]; intros f g N Hi Hg; [reflexivity|].
  inversion N as [|? ? Nk N']; subst. cbn [fold_left].
  assert (Hk : In k ka) by (apply Hi; left; reflexivity).
  assert (Hi' : incl keys ka) by (intros y Hy; apply Hi; right; exact Hy).
  unfold remove_pairs_step at 2. rewrite !counter_get_map.
  assert (Ek : existsb (eqb k) ka = true) by (apply existsb_eqb; exact Hk). rewrite Ek.
  destruct (existsb (eqb k) kb) eqn:E.
  - rewrite !counter_set_map by assumption.
    rewrite (IH (fun y => if eqb k y then (f k - Nat.min (f k) (g k))%nat else f y)
                (fun y => if eqb k y then (g k - Nat.min (f k) (g k))%nat else g y)); auto.
    + f_equal; apply map_ext; intros y; f_equal; cbn [existsb]; rewrite (eqb_sym y k);
      destruct (eqb k y) eqn:F; cbn [orb]; try reflexivity;
      apply Heq in F; subst; apply existsb_eqb_false in Nk; rewrite Nk; lia.
    + intros y Hy. destruct (eqb k y) eqn:F; [|auto]. apply Heq in F. subst.
      apply existsb_eqb in E. contradiction.
  - rewrite IH by assumption. apply existsb_eqb_false in E. specialize (Hg k E).
    f_equal; apply map_ext; intros y; f_equal; cbn [existsb];
    destruct (eqb y k) eqn:F; cbn [orb]; try reflexivity;
    apply Heq in F; subst; apply existsb_eqb_false in Nk; rewrite Nk; lia.
Qed.

Lemma counter_expand_map f ks :
  counter_expand (map (fun x : A => (x, f x)) ks) = flat_map (fun x => repeat x (f x)) ks.
Proof. induction ks as [|k ks IH]; [reflexivity|]. cbn. cbn in IH. rewrite <- IH. reflexivity. Qed.

Lemma flat_map_ext_in' {B} (f g : A -> list B) l : (forall x, In x l -> f x = g x) -> flat_map f l = flat_map g l.
Proof. induction l as [|x l IH]; intros H; [reflexivity|]. cbn. rewrite H, IH; auto with datatypes. Qed.

Lemma remove_pairs_closed a b : remove_pairs eqb a b =
  (flat_map (fun x => repeat x (cnt eqb x a - cnt eqb x b)) (nub eqb a),
   flat_map (fun x => repeat x (cnt eqb x b - cnt eqb x a)) (nub eqb b)).
Proof.
  unfold remove_pairs. rewrite !counter_closed, map_map. cbn [fst]. rewrite map_id.
  rewrite remove_pairs_fold; try apply nub_nodup.
  - rewrite !counter_expand_map. f_equal; apply flat_map_ext_in'; intros x Hx.
    + apply existsb_eqb in Hx. rewrite Hx. reflexivity.
    + destruct (existsb (eqb x) (nub eqb a)) eqn:E; [reflexivity|].
      apply existsb_eqb_false in E. rewrite nub_in in E. apply cnt_zero in E. rewrite E, Nat.sub_0_r. reflexivity.
  - intros y Hy; exact Hy.
  - intros y Hy. rewrite nub_in in Hy. apply cnt_zero. exact Hy.
Qed.

Lemma remove_pairs_counts a b v :
  cnt eqb v (fst (remove_pairs eqb a b)) = (cnt eqb v a - cnt eqb v b)%nat /\
  cnt eqb v (snd (remove_pairs eqb a b)) = (cnt eqb v b - cnt eqb v a)%nat.
Proof.
  rewrite remove_pairs_closed. cbn [fst snd].
  rewrite (cnt_flat_map_repeat v (fun x => (cnt eqb x a - cnt eqb x b)%nat)) by apply nub_nodup.
  rewrite (cnt_flat_map_repeat v (fun x => (cnt eqb x b - cnt eqb x a)%nat)) by apply nub_nodup.
  split.
  - destruct (existsb (eqb v) (nub eqb a)) eqn:E; [reflexivity|].
    apply existsb_eqb_false in E. rewrite nub_in in E. apply cnt_zero in E. lia.
  - destruct (existsb (eqb v) (nub eqb b)) eqn:E; [reflexivity|].
    apply existsb_eqb_false in E. rewrite nub_in in E. apply cnt_zero in E. lia.
Qed.

Lemma remove_pairs_disjoint a b v :
  ~ (In v (fst (remove_pairs eqb a b)) /\ In v (snd (remove_pairs eqb a b))).
Proof. rewrite <- !cnt_pos. destruct (remove_pairs_counts a b v) as [-> ->]. lia. Qed.

Lemma remove_pairs_perm a b : exists common,
  Permutation a (fst (remove_pairs eqb a b) ++ common) /\
  Permutation b (snd (remove_pairs eqb a b) ++ common).
Proof.
  exists (flat_map (fun x => repeat x (Nat.min (cnt eqb x a) (cnt eqb x b))) (nub eqb a)).
  split; apply perm_cnt; intros v; rewrite cnt_app;
  destruct (remove_pairs_counts a b v) as [E1 E2];
  rewrite (cnt_flat_map_repeat v (fun x => Nat.min (cnt eqb x a) (cnt eqb x b))) by apply nub_nodup;
  destruct (existsb (eqb v) (nub eqb a)) eqn:E; try lia;
  apply existsb_eqb_false in E; rewrite nub_in in E; apply cnt_zero in E; lia.
Qed.

Lemma sorted_filter (R : A -> A -> Prop) (p : A -> bool) l :
  StronglySorted R l -> StronglySorted R (filter p l).
Proof. induction 1 as [|x l H IH F]; [constructor|]. cbn [filter]. destruct (p x); [|exact IH].
  constructor; [exact IH|]. apply Forall_forall. intros y Hy. apply filter_In in Hy.
  rewrite Forall_forall in F. apply F. tauto. Qed.
Lemma sorted_nub (R : A -> A -> Prop) l : StronglySorted R l -> StronglySorted R (nub eqb l).
Proof. induction 1 as [|x l H IH F]; [constructor|]. cbn [nub]. constructor; [apply sorted_filter; exact IH|].
  apply Forall_forall. intros y Hy. apply filter_In in Hy. rewrite Forall_forall in F. apply F.
  apply nub_in. tauto. Qed.
Lemma sorted_expand (R : A -> A -> Prop) f l : (forall x, R x x) ->
  StronglySorted R l -> StronglySorted R (flat_map (fun x : A => repeat x (f x)) l).
Proof. intros Hr. induction 1 as [|x l H IH F]; [constructor|]. cbn [flat_map].
  assert (G : Forall (R x) (flat_map (fun x => repeat x (f x)) l)).
  { apply Forall_forall. intros y Hy. apply in_flat_map in Hy. destruct Hy as (z & Hz & Hy).
    apply repeat_spec in Hy. subst. rewrite Forall_forall in F. auto. }
  induction (f x) as [|k IHk]; [exact IH|]. cbn [repeat app]. constructor; [exact IHk|].
  apply Forall_app. split; [|exact G]. apply Forall_forall. intros y Hy. apply repeat_spec in Hy. subst. apply Hr. Qed.

Lemma remove_pairs_sorted (R : A -> A -> Prop) a b : (forall x, R x x) ->
  (StronglySorted R a -> StronglySorted R (fst (remove_pairs eqb a b))) /\
  (StronglySorted R b -> StronglySorted R (snd (remove_pairs eqb a b))).
Proof. intros Hr. rewrite remove_pairs_closed. cbn [fst snd].
  split; intros H.
  - apply (sorted_expand R (fun x => (cnt eqb x a - cnt eqb x b)%nat)); [exact Hr|apply sorted_nub; exact H].
  - apply (sorted_expand R (fun x => (cnt eqb x b - cnt eqb x a)%nat)); [exact Hr|apply sorted_nub; exact H]. Qed.

(** ** FastList *)
Definition fl_inv (l : fastlist A) : Prop :=
  NoDup (fl_items l) /\ (forall x, In x (fl_set l) <-> In x (fl_items l)).

Lemma fl_new_inv : fl_inv fl_new.
Proof. split; [constructor|reflexivity]. Qed.
Lemma fl_contains_spec x l : fl_inv l -> fl_contains eqb x l = existsb (eqb x) (fl_items l).
Proof. intros [_ H]. unfold fl_contains. destruct (existsb (eqb x) (fl_items l)) eqn:E.
  - apply existsb_eqb, H, existsb_eqb. exact E.
  - apply existsb_eqb_false. rewrite H. apply existsb_eqb_false. exact E. Qed.
Lemma fl_contains_in x l : fl_inv l -> fl_contains eqb x l = true <-> In x (fl_items l).
Proof. intros H. rewrite fl_contains_spec by exact H. apply existsb_eqb. Qed.

Lemma nodup_snoc (l : list A) x : NoDup l -> ~ In x l -> NoDup (l ++ [x]).
Proof. intros H Hx. apply NoDup_Add with (a := x) (l := l); [|split; assumption].
  pose proof (Add_app x l []) as E. rewrite app_nil_r in E. exact E. Qed.

Lemma fl_append_spec x l : fl_inv l ->
  fl_inv (fl_append eqb x l) /\ fl_items (fl_append eqb x l) = ref_append eqb x (fl_items l).
Proof. intros H. unfold fl_append, ref_append. rewrite fl_contains_spec by exact H.
  destruct (existsb (eqb x) (fl_items l)) eqn:E; [auto|]. apply existsb_eqb_false in E.
  split; [|reflexivity]. destruct H as [N H]. split; cbn [fl_items fl_set].
  - apply nodup_snoc; assumption.
  - intros y. rewrite in_app_iff. cbn [In]. rewrite H. tauto. Qed.
Lemma fl_extend_spec xs : forall l, fl_inv l ->
  fl_inv (fl_extend eqb xs l) /\
  fl_items (fl_extend eqb xs l) = fold_left (fun l x => ref_append eqb x l) xs (fl_items l).
Proof. induction xs as [|x xs IH]; intros l H; [split; [exact H|reflexivity]|].
  cbn [fl_extend fold_left]. destruct (fl_append_spec x l H) as [H1 E1].
  destruct (IH _ H1) as [H2 E2]. split; [exact H2|]. etransitivity; [exact E2|]. rewrite E1. reflexivity. Qed.
Lemma fl_extend_in xs y : forall l, fl_inv l ->
  In y (fl_items (fl_extend eqb xs l)) <-> In y xs \/ In y (fl_items l).
Proof. induction xs as [|x xs IH]; intros l H; [cbn; tauto|].
  cbn [fl_extend fold_left]. fold (fl_extend eqb xs (fl_append eqb x l)).
  destruct (fl_append_spec x l H) as [H1 E1].
  rewrite IH by exact H1. rewrite E1. unfold ref_append. cbn [In].
  destruct (existsb (eqb x) (fl_items l)) eqn:E.
  - apply existsb_eqb in E. intuition congruence.
  - rewrite in_app_iff. cbn [In]. tauto. Qed.

Lemma list_remove_spec x l :
  list_remove eqb x l =
  match position eqb x l with Some k => Ok (drop_at k l) | None => Err ValueError end.
Proof. induction l as [|y l IH]; [reflexivity|]. cbn [list_remove position]. rewrite (eqb_sym y x).
  destruct (eqb x y); [reflexivity|]. rewrite IH. destruct (position eqb x l); reflexivity. Qed.
Lemma position_in x l k : position eqb x l = Some k -> nth_error l k = Some x.
Proof. revert k. induction l as [|y l IH]; intros k; [discriminate|]. cbn [position].
  destruct (eqb x y) eqn:E.
  - intros [= <-]. apply Heq in E. subst. reflexivity.
  - destruct (position eqb x l) as [j|]; [|discriminate]. intros [= <-]. apply IH. reflexivity. Qed.
Lemma position_none x l : position eqb x l = None <-> ~ In x l.
Proof. induction l as [|y l IH]; [cbn; intuition|]. cbn [position In]. destruct (eqb x y) eqn:E.
  - apply Heq in E. subst. intuition congruence.
  - apply eqb_false in E. destruct (position eqb x l); cbn [option_map]; intuition congruence. Qed.
Lemma drop_at_split k x (l : list A) : nth_error l k = Some x ->
  exists a b, l = a ++ x :: b /\ drop_at k l = a ++ b.
Proof. intros H. destruct (nth_error_split _ _ H) as (a & b & -> & <-). exists a, b.
  split; [reflexivity|]. unfold drop_at. rewrite firstn_app, firstn_all, Nat.sub_diag. cbn [firstn].
  rewrite app_nil_r. f_equal. rewrite skipn_app. rewrite skipn_all2 by lia.
  replace (S (length a) - length a)%nat with 1%nat by lia. reflexivity. Qed.

Lemma fl_drop_inv k x (items s : list A) : fl_inv (FL items s) -> nth_error items k = Some x ->
  exists s', set_remove eqb x s = Ok s' /\ fl_inv (FL (drop_at k items) s').
Proof. intros [N H] Hk. cbn [fl_items fl_set] in *. destruct (drop_at_split _ _ _ Hk) as (a & b & -> & ->).
  exists (filter (fun y => negb (eqb x y)) s). split.
  - unfold set_remove. assert (E : existsb (eqb x) s = true)
      by (apply existsb_eqb, H, in_app_iff; right; left; reflexivity). rewrite E. reflexivity.
  - split; cbn [fl_items fl_set]; [exact (NoDup_remove_1 _ _ _ N)|]. intros y. rewrite filter_In, H.
    pose proof (NoDup_remove_2 _ _ _ N) as N2. rewrite !in_app_iff in *. cbn [In] in *.
    destruct (eqb x y) eqn:E; cbn [negb].
    + apply Heq in E. subst. intuition congruence.
    + apply eqb_false in E. intuition congruence. Qed.

Lemma fl_step_spec o l : fl_inv l ->
  fl_inv (fst (fl_step eqb o l)) /\
  fl_items (fst (fl_step eqb o l)) = fst (ref_step eqb o (fl_items l)) /\
  (match snd (fl_step eqb o l) with None => false | Some _ => true end) = snd (ref_step eqb o (fl_items l)) /\
  (snd (fl_step eqb o l) <> None -> fst (fl_step eqb o l) = l).
Proof.
  intros H. destruct o as [x|xs|x|i|]; cbn [fl_step ref_step].
  - cbn [fst snd]. destruct (fl_append_spec x l H). intuition congruence.
  - cbn [fst snd]. destruct (fl_extend_spec xs l H). intuition congruence.
  - unfold fl_remove. rewrite list_remove_spec. destruct (position eqb x (fl_items l)) as [k|] eqn:E.
    + apply position_in in E. destruct l as [items s]. cbn [fl_items fl_set] in *.
      destruct (fl_drop_inv _ _ _ _ H E) as (s' & -> & H'). cbn [fst snd]. intuition congruence.
    + cbn [fst snd]. auto.
  - unfold fl_pop, list_pop, py_index. destruct l as [items s]. cbn [fl_items fl_set] in *.
    set (n := Z.of_nat (length items)). set (k := if i <? 0 then i + n else i).
    assert (E : ((0 <=? k) && (k <? n)) = ((- n <=? i) && (i <? n))).
    { unfold k. destruct (Z.ltb_spec i 0); lia. }
    rewrite E. destruct ((- n <=? i) && (i <? n)) eqn:F; [|cbn [fst snd]; auto].
    destruct (nth_error items (Z.to_nat k)) as [x|] eqn:G.
    + destruct (fl_drop_inv _ _ _ _ H G) as (s' & E' & H'). fold (drop_at (Z.to_nat k) items).
      rewrite E'. cbn [fst snd]. intuition congruence.
    + apply nth_error_None in G. unfold k, n in *. destruct (Z.ltb_spec i 0); lia.
  - cbn [fst snd]. split; [apply fl_new_inv|]. intuition congruence.
Qed.

Lemma fl_run_spec ops : forall l, fl_inv l ->
  let l' := fold_left (fun l o => fst (fl_step eqb o l)) ops l in
  fl_inv l' /\ fl_items l' = fold_left (fun l o => fst (ref_step eqb o l)) ops (fl_items l).
Proof. induction ops as [|o ops IH]; intros l H; [split; [exact H|reflexivity]|].
  cbn [fold_left]. destruct (fl_step_spec o l H) as (H1 & E1 & _). specialize (IH _ H1). cbn zeta in *.
  rewrite <- E1. exact IH. Qed.

End Eq.

Lemma Z_eq_decides : eq_decides Z.eqb.
Proof. intros x y. apply Z.eqb_eq. Qed.

Lemma remove_pairs_sums a b :
  zsum (fst (remove_pairs Z.eqb a b)) - zsum (snd (remove_pairs Z.eqb a b)) = zsum a - zsum b.
Proof. destruct (remove_pairs_perm Z.eqb Z_eq_decides a b) as (c & H1 & H2).
  apply zsum_perm in H1, H2. rewrite zsum_app in H1, H2. lia. Qed.

(** ** history *)
Lemma str_eq_decides : eq_decides str_eqb.
Proof. intros x. induction x as [|c x IH]; intros [|d y]; cbn [str_eqb]; try (split; congruence).
  rewrite andb_true_iff, IH, Z.eqb_eq. split; [intros [-> ->]; reflexivity|intros [= -> ->]; auto]. Qed.

Lemma remove_nodup x l : NoDup l -> remove_if_in x l = filter (fun y => negb (str_eqb x y)) l.
Proof. unfold remove_if_in. induction l as [|y l IH]; intros N; [reflexivity|]. inversion N; subst.
  cbn [list_remove filter]. rewrite (eqb_sym _ str_eq_decides y x). destruct (str_eqb x y) eqn:E; cbn [negb].
  - apply str_eq_decides in E. subst. symmetry. clear -H1. induction l as [|z l IH]; [reflexivity|].
    cbn [filter]. assert (F : str_eqb y z = false) by (apply (eqb_false _ str_eq_decides); intros ->; apply H1; left; reflexivity).
    rewrite F. cbn [negb]. rewrite IH; [reflexivity|]. intros H. apply H1. right. exact H.
  - specialize (IH H2). destruct (list_remove str_eqb x l); cbn [bind]; rewrite <- IH; reflexivity. Qed.

Lemma remove_absent x l : existsb (str_eqb x) l = false -> filter (fun y => negb (str_eqb x y)) l = l.
Proof. induction l as [|y l IH]; [reflexivity|]. cbn [existsb filter]. intros H.
  apply orb_false_elim in H. destruct H as [-> H]. cbn [negb]. rewrite IH by exact H. reflexivity. Qed.

Lemma filter_rev {A} (p : A -> bool) l : filter p (rev l) = rev (filter p l).
Proof. induction l as [|x l IH]; [reflexivity|]. cbn [rev filter]. rewrite filter_app, IH.
  cbn [filter]. destruct (p x); [reflexivity|]. rewrite app_nil_r. reflexivity. Qed.

Lemma history_append_closed h s l : NoDup l ->
  h_storage h = rev l -> h_loaded_strings h = l ->
  let h' := history_append h s in let l' := norm s :: filter (fun y => negb (str_eqb (norm s) y)) l in
  NoDup l' /\ h_storage h' = rev l' /\ h_loaded_strings h' = l'.
Proof.
  intros N E1 E2. unfold history_append. fold (norm s). cbn zeta. cbn [h_storage h_loaded_strings].
  rewrite E1, E2. split; [|split].
  - constructor; [|apply NoDup_filter; exact N]. rewrite filter_In, (eqb_refl _ str_eq_decides). cbn. intuition congruence.
  - cbn [rev]. f_equal. rewrite <- filter_rev. destruct (existsb (str_eqb (norm s)) (rev l)) eqn:E.
    + apply remove_nodup. apply NoDup_rev. exact N.
    + symmetry. apply remove_absent. exact E.
  - f_equal. destruct (existsb (str_eqb (norm s)) l) eqn:E.
    + apply remove_nodup. exact N.
    + symmetry. apply remove_absent. exact E.
Qed.

Lemma history_spec ops :
  let h := fold_left hstep ops history_new in
  h_loaded_strings h = nub str_eqb (rev (appended ops)) /\
  h_storage h = rev (nub str_eqb (rev (appended ops))).
Proof.
  cbn zeta. induction ops as [|o ops IH] using rev_ind; [split; reflexivity|].
  rewrite fold_left_app. cbn [fold_left]. set (h := fold_left hstep ops history_new) in *.
  destruct IH as [E1 E2]. unfold appended in *. rewrite flat_map_app. cbn [flat_map]. rewrite app_nil_r.
  destruct o as [s|]; cbn [hstep].
  - rewrite rev_app_distr. cbn [rev app nub].
    destruct (history_append_closed h s _ (nub_nodup _ str_eq_decides _) E2 E1) as (_ & F1 & F2). auto.
  - rewrite app_nil_r. unfold history_load. destruct (h_loaded h); [auto|]. cbn [h_loaded_strings h_storage].
    rewrite E2, rev_involutive. auto.
Qed.

(** ** all_sums *)
Lemma subseq_snoc_inv {A} (s l : list A) x : subseq s (l ++ [x]) ->
  subseq s l \/ exists s', s = s' ++ [x] /\ subseq s' l.
Proof.
  revert s. induction l as [|y l IH]; intros s H; cbn [app] in H.
  - inversion H as [|? ? ? H1|? ? ? H1]; subst; inversion H1; subst.
    + left. constructor.
    + right. exists []. split; [reflexivity|constructor].
  - inversion H as [|? ? ? H1|? ? ? H1]; subst.
    + destruct (IH _ H1) as [H2|(s' & -> & H2)]; [left; constructor; exact H2|].
      right. exists s'. split; [reflexivity|constructor; exact H2].
    + destruct (IH _ H1) as [H2|(s' & -> & H2)]; [left; constructor; exact H2|].
      right. exists (y :: s'). split; [reflexivity|constructor; exact H2].
Qed.
Lemma subseq_nil {A} (l : list A) : subseq [] l.
Proof. induction l; constructor; assumption. Qed.
Lemma subseq_app {A} (s l s' l' : list A) : subseq s l -> subseq s' l' -> subseq (s ++ s') (l ++ l').
Proof. induction 1; intros H'; cbn [app]; [exact H'|apply sub_skip|apply sub_take]; auto. Qed.
Lemma subseq_skip_r {A} (s l : list A) x : subseq s l -> subseq s (l ++ [x]).
Proof. intros H. rewrite <- (app_nil_r s). apply subseq_app; [exact H|apply subseq_nil]. Qed.
Lemma subseq_take_r {A} (s l : list A) x : subseq s l -> subseq (s ++ [x]) (l ++ [x]).
Proof. intros H. apply subseq_app; [exact H|]. apply sub_take. constructor. Qed.

Lemma dict_get_set k v k' d : dict_get k' (dict_set k v d) = if k =? k' then Some v else dict_get k' d.
Proof. induction d as [|[a b] d IH]; cbn [dict_set dict_get].
  - reflexivity.
  - destruct (Z.eqb_spec a k) as [->|N]; cbn [dict_get].
    + destruct (k =? k'); reflexivity.
    + rewrite IH. destruct (Z.eqb_spec a k') as [->|N2]; [|reflexivity].
      destruct (Z.eqb_spec k k'); [congruence|reflexivity]. Qed.

Lemma dict_keys_set k v d : NoDup (map fst d) -> NoDup (map fst (dict_set k v d)) /\
  forall x, In x (map fst (dict_set k v d)) <-> x = k \/ In x (map fst d).
Proof. induction d as [|[a b] d IH]; cbn [dict_set map fst].
  - intros _. split; [repeat constructor; cbn; tauto|]. cbn. intuition congruence.
  - intros N. inversion N as [|? ? Na N']; subst. destruct (Z.eqb_spec a k) as [->|E]; cbn [map fst].
    + split; [constructor; assumption|]. intros x. cbn [In]. intuition congruence.
    + destruct (IH N') as [N2 H2]. split; [constructor; [|exact N2]; rewrite H2; intuition congruence|].
      intros x. cbn [In]. rewrite H2. intuition congruence. Qed.

Lemma dict_get_in k d : NoDup (map fst d) -> forall v, dict_get k d = Some v <-> In (k, v) d.
Proof. induction d as [|[a b] d IH]; cbn [dict_get map fst In]; intros N v; [split; [discriminate|tauto]|].
  inversion N as [|? ? Na N']; subst. destruct (Z.eqb_spec a k) as [->|E].
  - split; [intros [= ->]; auto|]. intros [[= ->]|H]; [reflexivity|].
    exfalso. apply Na. apply in_map_iff. exists (k, v). auto.
  - rewrite IH by exact N'. intuition congruence. Qed.

(** effect of d.update(e) *)
Lemma dict_update_spec e : forall d, NoDup (map fst e) -> NoDup (map fst d) ->
  let u := fold_left (fun d kv => dict_set (fst kv) (snd kv) d) e d in
  NoDup (map fst u) /\
  forall k, dict_get k u = match dict_get k e with Some v => Some v | None => dict_get k d end.
Proof. induction e as [|[a b] e IH]; intros d Ne Nd; [split; [exact Nd|reflexivity]|].
  cbn [fold_left fst snd]. inversion Ne as [|? ? Na Ne']; subst.
  destruct (IH (dict_set a b d) Ne' (proj1 (dict_keys_set a b d Nd))) as [H1 H2]. split; [exact H1|].
  intros k. rewrite H2, dict_get_set. cbn [dict_get]. destruct (Z.eqb_spec a k) as [->|N]; [|reflexivity].
  destruct (dict_get k e) as [v|] eqn:E; [|reflexivity].
  exfalso. apply Na. apply dict_get_in in E; [|exact Ne']. apply in_map_iff. exists (k, v). auto. Qed.

Lemma dict_get_shift num s d : dict_get s (map (fun p => (fst p + num, snd p + 1)) d) =
  option_map (fun c => c + 1) (dict_get (s - num) d).
Proof. induction d as [|[a b] d IH]; [reflexivity|]. cbn [map dict_get fst snd].
  destruct (Z.eqb_spec (a + num) s), (Z.eqb_spec a (s - num)); try lia; auto. Qed.

Lemma all_sums_step_spec num d : NoDup (map fst d) ->
  NoDup (map fst (all_sums_step d num)) /\
  forall s, dict_get s (all_sums_step d num) =
    match dict_get (s - num) d with Some c => Some (c + 1) | None => dict_get s d end.
Proof. intros N. unfold all_sums_step.
  destruct (dict_update_spec (map (fun p => (fst p + num, snd p + 1)) d) d) as [H1 H2]; auto.
  - rewrite map_map. cbn [fst]. clear -N. induction d as [|[a b] d IH]; [constructor|].
    cbn [map fst] in *. inversion N as [|? ? Na N']; subst. constructor; [|auto].
    intros H. apply Na. apply in_map_iff in H. destruct H as ([x y] & E & H). apply in_map_iff.
    exists (x, y). cbn [fst] in *. split; [lia|exact H].
  - split; [exact H1|]. intros s. rewrite H2, dict_get_shift. destruct (dict_get (s - num) d); reflexivity. Qed.

Lemma all_sums_raw numbers :
  let d := fold_left all_sums_step numbers [(0, 0)] in
  NoDup (map fst d) /\
  (forall s c, dict_get s d = Some c ->
     exists l, subseq l numbers /\ zsum l = s /\ c = Z.of_nat (length l)) /\
  (forall l, subseq l numbers -> dict_get (zsum l) d <> None).
Proof.
  cbn zeta. induction numbers as [|x l IH] using rev_ind.
  - cbn [fold_left]. split; [repeat constructor; cbn; tauto|]. split.
    + intros s c. cbn [dict_get]. destruct (Z.eqb_spec 0 s) as [<-|]; [|discriminate]. intros [= <-].
      exists []. repeat split. constructor.
    + intros l H. inversion H; subst. cbn. discriminate.
  - rewrite fold_left_app. cbn [fold_left]. set (d := fold_left all_sums_step l [(0, 0)]) in *.
    destruct IH as (N & H1 & H2). destruct (all_sums_step_spec x d N) as [N' G]. split; [exact N'|]. split.
    + intros s c. rewrite G. destruct (dict_get (s - x) d) as [c'|] eqn:E.
      * intros [= <-]. destruct (H1 _ _ E) as (l' & L1 & L2 & ->). exists (l' ++ [x]).
        split; [apply subseq_take_r; exact L1|]. rewrite zsum_app, app_length. cbn [zsum fold_right length]. lia.
      * intros F. destruct (H1 _ _ F) as (l' & L1 & L2 & ->). exists l'. split; [apply subseq_skip_r; exact L1|auto].
    + intros l' H. rewrite G. destruct (subseq_snoc_inv _ _ _ H) as [L|(l2 & -> & L)].
      * destruct (dict_get (zsum l' - x) d); [discriminate|]. apply H2. exact L.
      * rewrite zsum_app. cbn [zsum fold_right]. replace (zsum l2 + (x + 0) - x) with (zsum l2) by lia.
        specialize (H2 l2 L). destruct (dict_get (zsum l2) d); [discriminate|congruence].
Qed.

Lemma subseq_pos l m : subseq l m -> Forall (fun v => 0 < v) m -> Forall (fun v => 0 < v) l.
Proof. induction 1; intros F; [constructor| |]; inversion F; subst; auto. Qed.
Lemma zsum_pos l : Forall (fun v => 0 < v) l -> l <> [] -> 0 < zsum l.
Proof. intros F N. destruct l as [|x l]; [congruence|]. inversion F; subst. rewrite zsum_cons.
  assert (0 <= zsum l); [|lia]. clear -H2. induction l as [|y l IH]; [cbn; lia|]. inversion H2; subst.
  rewrite zsum_cons. specialize (IH H3). lia. Qed.

Lemma in_keys_get s d : NoDup (map fst d) -> In s (map fst d) <-> dict_get s d <> None.
Proof. intros N. split.
  - intros H. apply in_map_iff in H. destruct H as ([a b] & <- & H). apply dict_get_in in H; [|exact N].
    cbn [fst]. congruence.
  - intros H. destruct (dict_get s d) as [v|] eqn:E; [|congruence]. apply dict_get_in in E; [|exact N].
    apply in_map_iff. exists (s, v). auto. Qed.

Lemma all_sums_spec numbers : Forall (fun v => 0 < v) numbers ->
  NoDup (map fst (all_sums numbers)) /\
  (forall s, In s (map fst (all_sums numbers)) <->
     exists l, subseq l numbers /\ l <> [] /\ zsum l = s) /\
  (forall s c, In (s, c) (all_sums numbers) ->
     exists l, subseq l numbers /\ zsum l = s /\ c = Z.of_nat (length l)).
Proof.
  intros P. destruct (all_sums_raw numbers) as (N & H1 & H2). unfold all_sums.
  set (d := fold_left all_sums_step numbers [(0, 0)]) in *.
  assert (N' : NoDup (map fst (filter (fun p : Z * Z => negb (fst p =? 0)) d))).
  { clear -N. induction d as [|[a b] d IH]; [constructor|]. cbn [map fst] in N. inversion N; subst.
    cbn [filter fst]. destruct (negb (a =? 0)); [|auto]. cbn [map fst]. constructor; [|auto].
    intros H. apply H1. apply in_map_iff in H. destruct H as (p & <- & Hp). apply filter_In in Hp.
    apply in_map. tauto. }
  split; [exact N'|]. split.
  - intros s. split.
    + intros H. apply in_map_iff in H. destruct H as ([a b] & <- & H). cbn [fst].
      apply filter_In in H. destruct H as [H Z0]. cbn [fst] in Z0. apply dict_get_in in H; [|exact N].
      destruct (H1 _ _ H) as (l & L1 & L2 & L3). exists l. repeat split; auto. intros ->. cbn in L2. lia.
    + intros (l & L1 & L2 & L3). pose proof (H2 l L1) as G. rewrite L3 in G.
      destruct (dict_get s d) as [c|] eqn:E; [|congruence]. apply dict_get_in in E; [|exact N].
      apply in_map_iff. exists (s, c). split; [reflexivity|]. apply filter_In. split; [exact E|]. cbn [fst].
      pose proof (zsum_pos l (subseq_pos _ _ L1 P) L2). lia.
  - intros s c H. apply filter_In in H. destruct H as [H _]. apply dict_get_in in H; [|exact N]. exact (H1 _ _ H).
Qed.

(** ** find_linear_combinations *)
Fixpoint sols (xs : list Z) (y : Z) : list (list Z) :=
  if y =? 0 then [repeat 0 (length xs)]
  else match xs with
       | [] => []
       | x :: r => flat_map (fun c => map (cons c) (sols r (y - c * x))) (zrange 0 (y / x + 1))
       end.

Lemma zrange_in lo hi v : In v (zrange lo hi) <-> lo <= v < hi.
Proof. unfold zrange. rewrite in_map_iff. split.
  - intros (i & <- & H). apply in_seq in H. lia.
  - intros H. exists (Z.to_nat (v - lo)). split; [lia|]. apply in_seq. lia. Qed.
Lemma zrange_nodup lo hi : NoDup (zrange lo hi).
Proof. unfold zrange. apply FinFun.Injective_map_NoDup; [|apply seq_NoDup]. intros a b. lia. Qed.

Lemma dot_repeat0 n x : dot (repeat 0 n) x = 0.
Proof. revert x. induction n as [|n IH]; intros [|b x]; cbn [repeat dot]; try reflexivity. rewrite IH. lia. Qed.
Lemma dot_nonneg c x : Forall (fun a => 0 <= a) c -> Forall (fun a => 0 < a) x -> 0 <= dot c x.
Proof. revert x. induction c as [|a c IH]; intros [|b x] Hc Hx; cbn [dot]; try lia.
  inversion Hc; inversion Hx; subst. specialize (IH x). pose proof (Z.mul_nonneg_nonneg a b). lia. Qed.
Lemma dot_zero c x : Forall (fun a => 0 <= a) c -> Forall (fun a => 0 < a) x -> length c = length x ->
  dot c x = 0 -> c = repeat 0 (length x).
Proof. revert x. induction c as [|a c IH]; intros [|b x] Hc Hx L D; cbn [length repeat] in *; try discriminate; [reflexivity|].
  inversion Hc; inversion Hx; subst. cbn [dot] in D.
  pose proof (dot_nonneg c x H2 H6). pose proof (Z.mul_nonneg_nonneg a b).
  assert (a = 0) by nia. subst. f_equal. apply IH; auto; try lia. Qed.

Lemma repeat_nonneg n : Forall (fun a => 0 <= a) (repeat 0 n).
Proof. apply Forall_forall. intros a H. apply repeat_spec in H. lia. Qed.

Lemma sols_spec xs : Forall (fun a => 0 < a) xs -> forall y, 0 <= y ->
  NoDup (sols xs y) /\ forall c, In c (sols xs y) <-> nonneg_solution xs y c.
Proof.
  unfold nonneg_solution.
  induction xs as [|x r IH]; intros P y Hy; cbn [sols]; destruct (Z.eqb_spec y 0) as [->|Ny].
  - split; [repeat constructor; cbn; tauto|]. intros c. cbn [length repeat In]. split.
    + intros [<-|[]]. repeat split. constructor.
    + intros (L & _). destruct c; [auto|discriminate].
  - split; [constructor|]. intros c. cbn [In]. split; [tauto|]. intros (L & _ & D).
    destruct c; [|discriminate]. cbn in D. congruence.
  - split; [repeat constructor; cbn; tauto|]. intros c. cbn [In]. split.
    + intros [<-|[]]. rewrite repeat_length. repeat split; [apply repeat_nonneg|apply dot_repeat0].
    + intros (L & H & D). left. symmetry. apply dot_zero; assumption.
  - inversion P as [|? ? Px Pr]; subst. specialize (IH Pr).
    assert (B : forall c, 0 <= c < y / x + 1 -> 0 <= y - c * x).
    { intros c Hc. pose proof (Z.mul_div_le y x Px). nia. }
    split.
    + assert (G : forall cs, NoDup cs -> (forall c, In c cs -> 0 <= c < y / x + 1) ->
        NoDup (flat_map (fun c => map (cons c) (sols r (y - c * x))) cs)).
      { induction cs as [|c cs IHc]; intros N R; [constructor|]. inversion N; subst. cbn [flat_map].
        assert (ND : forall a b : list (list Z), NoDup a -> NoDup b -> (forall v, In v a -> ~ In v b) -> NoDup (a ++ b)).
        { clear. induction a as [|v a IH]; intros b Na Nb D; [exact Nb|]. inversion Na; subst. cbn [app]. constructor.
          - rewrite in_app_iff. intros [H|H]; [auto|]. apply (D v); [left; reflexivity|exact H].
          - apply IH; auto. intros w Hw. apply D. right. exact Hw. }
        apply ND.
        - apply FinFun.Injective_map_NoDup; [intros a b [= ->]; reflexivity|].
          apply IH. apply B. apply R. left. reflexivity.
        - apply IHc; [assumption|]. intros c' Hc'. apply R. right. exact Hc'.
        - intros v Hv Hv'. apply in_map_iff in Hv. destruct Hv as (w & <- & _).
          apply in_flat_map in Hv'. destruct Hv' as (c' & Hc' & Hv'). apply in_map_iff in Hv'.
          destruct Hv' as (w' & [= E _] & _). subst. contradiction. }
      apply G; [apply zrange_nodup|]. intros c Hc. apply zrange_in in Hc. lia.
    + intros c. rewrite in_flat_map. split.
      * intros (a & Ha & H). apply zrange_in in Ha. apply in_map_iff in H. destruct H as (w & <- & Hw).
        apply IH in Hw; [|apply B; lia]. destruct Hw as (L & F & D). cbn [length dot].
        repeat split; [congruence|constructor; [lia|exact F]|lia].
      * intros (L & F & D). destruct c as [|a c]; [discriminate|]. cbn [length dot] in *.
        inversion F; subst. pose proof (dot_nonneg c r H2 Pr).
        assert (Ha : 0 <= a < (a * x + dot c r) / x + 1).
        { split; [assumption|]. enough (a <= (a * x + dot c r) / x) by lia.
          apply Z.div_le_lower_bound; lia. }
        exists a. split; [apply zrange_in; exact Ha|]. apply in_map. apply IH; [apply B; exact Ha|].
        repeat split; auto; lia.
Qed.

Lemma upd_length {A} i (f : A -> A) l : length (upd i f l) = length l.
Proof. revert i. induction l as [|x l IH]; intros [|i]; cbn [upd length]; auto. Qed.
Lemma upd_firstn {A} i (f : A -> A) l : firstn i (upd i f l) = firstn i l.
Proof. revert i. induction l as [|x l IH]; intros [|i]; cbn [upd firstn]; try reflexivity. f_equal. apply IH. Qed.
Lemma upd_firstn_S {A} i (a : A) l : (i < length l)%nat ->
  firstn (S i) (upd i (fun _ => a) l) = firstn i l ++ [a].
Proof. revert i. induction l as [|x l IH]; intros [|i] H; cbn [length] in H; try lia; [reflexivity|].
  cbn [upd]. change (x :: firstn (S i) (upd i (fun _ => a) l) = x :: firstn i l ++ [a]). f_equal. apply IH. lia. Qed.

Definition tracks (idx : nat) (pre : list Z) (n : nat) (o s : list Z) : Prop :=
  length o = (idx + n)%nat /\ length s = n /\
  exists k, (k <= n)%nat /\ firstn (idx + k) o = pre ++ firstn k s /\ skipn k s = repeat 0 (n - k).

Lemma firstn_S_prefix {A} (a b : list A) i c : firstn (S i) a = b ++ [c] -> length b = i -> firstn i a = b.
Proof. intros H L. apply (f_equal (firstn i)) in H. rewrite firstn_firstn in H.
  replace (Init.Nat.min i (S i)) with i in H by lia. rewrite H, firstn_app, L, Nat.sub_diag. cbn [firstn].
  rewrite app_nil_r. apply firstn_all2. lia. Qed.

Lemma flc_spec xs : Forall (fun a => 0 < a) xs -> forall y idx cur, 0 <= y ->
  length cur = (idx + length xs)%nat ->
  exists outs cur', flc xs y idx cur = Ok (outs, cur') /\ length cur' = length cur /\
    firstn idx cur' = firstn idx cur /\
    Forall2 (tracks idx (firstn idx cur) (length xs)) outs (sols xs y).
Proof.
  induction xs as [|x r IH]; intros P y idx cur Hy L; cbn [flc sols]; destruct (Z.eqb_spec y 0) as [->|Ny].
  - exists [cur], cur. repeat split. repeat constructor; [exact L|]. exists 0%nat.
    rewrite Nat.add_0_r. cbn [firstn]. rewrite app_nil_r. repeat split. lia.
  - exists [], cur. repeat split. constructor.
  - exists [cur], cur. repeat split. repeat constructor; [exact L|apply repeat_length|]. exists 0%nat.
    rewrite Nat.add_0_r. cbn [firstn]. rewrite app_nil_r. repeat split. lia.
  - inversion P as [|? ? Px Pr]; subst. destruct (Z.eqb_spec x 0); [lia|]. cbn [length] in L.
    assert (G : forall cs cur outs0, (forall c, In c cs -> 0 <= y - c * x) -> length cur = (idx + S (length r))%nat ->
      exists outs cur',
      fold_left (fun acc c =>
               do (out, cur) <- acc;
               do (out', cur') <- flc r (y - c * x) (S idx) (upd idx (fun _ => c) cur);
               Ok (out ++ out', cur')) cs (Ok (outs0, cur)) = Ok (outs0 ++ outs, cur') /\
      length cur' = length cur /\ firstn idx cur' = firstn idx cur /\
      Forall2 (tracks idx (firstn idx cur) (S (length r))) outs
        (flat_map (fun c => map (cons c) (sols r (y - c * x))) cs)).
    { clear L cur. induction cs as [|c cs IHc]; intros cur outs0 R L.
      - exists [], cur. rewrite app_nil_r. repeat split. constructor.
      - cbn [fold_left flat_map bind].
        destruct (IH Pr (y - c * x) (S idx) (upd idx (fun _ => c) cur)) as (o1 & c1 & E1 & L1 & F1 & T1).
        { apply R. left. reflexivity. } { rewrite upd_length. lia. }
        rewrite E1. cbn [bind]. rewrite upd_length in L1.
        assert (Fi : firstn idx c1 = firstn idx cur).
        { rewrite upd_firstn_S in F1 by lia. apply firstn_S_prefix in F1; [exact F1|]. rewrite firstn_length. lia. }
        destruct (IHc c1 (outs0 ++ o1)) as (o2 & c2 & E2 & L2 & F2 & T2).
        { intros c' Hc'. apply R. right. exact Hc'. } { lia. }
        exists (o1 ++ o2), c2. rewrite E2, app_assoc. repeat split; try congruence.
        rewrite Fi in T2. apply Forall2_app; [|exact T2].
        clear -T1 L. rewrite upd_firstn_S in T1 by lia. induction T1 as [|o s os ss T _ IH]; [constructor|].
        cbn [map]. constructor; [|exact IH]. destruct T as (A1 & A2 & k & A3 & A4 & A5).
        split; [lia|]. split; [cbn [length]; lia|]. exists (S k). split; [lia|].
        replace (idx + S k)%nat with (S idx + k)%nat by lia. rewrite A4, <- app_assoc. split; [reflexivity|].
        cbn [skipn]. rewrite A5. f_equal. }
    destruct (G (zrange 0 (y / x + 1)) cur []) as (outs & cur' & E & L' & F' & T); [|exact L|].
    + intros c Hc. apply zrange_in in Hc. pose proof (Z.mul_div_le y x Px). nia.
    + exists outs, cur'. rewrite E. repeat split; assumption.
Qed.

Lemma flc_partial x y : x <> [] -> Forall (fun a => 0 < a) x -> 0 <= y ->
  exists outs ss, find_linear_combinations x y = Ok outs /\
    NoDup ss /\ (forall c, In c ss <-> nonneg_solution x y c) /\
    Forall2 agrees_up_to_zeros outs ss.
Proof.
  intros Nx P Hy. unfold find_linear_combinations. destruct x as [|x0 r]; [congruence|].
  destruct (Z.ltb_spec y 0); [lia|].
  destruct (flc_spec (x0 :: r) P y 0 (repeat 0 (length (x0 :: r)))) as (outs & cur' & E & _ & _ & T).
  { exact Hy. } { rewrite repeat_length. reflexivity. }
  rewrite E. cbn [bind]. exists outs, (sols (x0 :: r) y).
  destruct (sols_spec (x0 :: r) P y Hy) as [N C]. repeat split; auto; try (apply C; assumption).
  clear -T. induction T as [|o s os ss T _ IH]; constructor; [|exact IH].
  destruct T as (A1 & A2 & k & A3 & A4 & A5). cbn [firstn app plus] in *.
  split; [lia|]. exists k. rewrite A2. auto.
Qed.

Lemma all_sums_not_minimal :
  exists numbers s c l, Forall (fun v => 0 < v) numbers /\ In (s, c) (all_sums numbers) /\
    subseq l numbers /\ zsum l = s /\ Z.of_nat (length l) < c.
Proof. exists [3; 1; 2], 3, 2, [3]. split; [repeat constructor|]. split; [vm_compute; tauto|].
  split; [apply sub_take; apply subseq_nil|]. split; [reflexivity|cbn; lia]. Qed.

Lemma all_sums_unambiguous numbers s c : Forall (fun v => 0 < v) numbers ->
  In (s, c) (all_sums numbers) ->
  (forall l l', subseq l numbers -> subseq l' numbers -> zsum l = s -> zsum l' = s -> length l = length l') ->
  forall l, subseq l numbers -> zsum l = s -> c = Z.of_nat (length l).
Proof. intros P H U l L E. destruct (all_sums_spec numbers P) as (_ & _ & G). destruct (G _ _ H) as (l' & L' & E' & ->).
  f_equal. apply U; auto. Qed.

Lemma flc_stale :
  exists x y outs c, x <> [] /\ Forall (fun a => 0 < a) x /\ 0 <= y /\
    find_linear_combinations x y = Ok outs /\ In c outs /\ ~ nonneg_solution x y c.
Proof. exists [2; 1], 2, [[0; 2]; [1; 2]], [1; 2]. split; [discriminate|]. split; [repeat constructor|].
  split; [lia|]. split; [reflexivity|]. split; [cbn; tauto|]. intros (_ & _ & D). discriminate. Qed.
