(** Generic lemmas about the vocabulary of Base.v. *)
From Verif Require Import Base.
From Coq Require Import ZifyBool ZifyNat.

Lemma map_repeat {A B} (f : A -> B) x k : map f (repeat x k) = repeat (f x) k.
Proof. induction k as [|k IH]; [reflexivity|]. cbn [repeat map]. rewrite IH. reflexivity. Qed.

Lemma zsum_nil : zsum [] = 0.
Proof. reflexivity. Qed.
Lemma zsum_cons x l : zsum (x :: l) = x + zsum l.
Proof. reflexivity. Qed.
Lemma zsum_app a b : zsum (a ++ b) = zsum a + zsum b.
Proof. unfold zsum. induction a as [|x a IH]; cbn [fold_right app]; lia. Qed.
Lemma zsum_repeat x k : zsum (repeat x k) = Z.of_nat k * x.
Proof. unfold zsum. induction k as [|k IH]; [reflexivity|]. cbn [repeat fold_right]. lia. Qed.
Lemma zsum_perm a b : Permutation a b -> zsum a = zsum b.
Proof. unfold zsum. induction 1; cbn [fold_right]; lia. Qed.

(** ** insort and sorted *)
Section Sorting.
Context {A : Type} (le : A -> A -> bool).
Definition is_sorted (l : list A) : Prop := StronglySorted (fun a b => le a b = true) l.

Lemma insort_perm x l : Permutation (insort_by le x l) (x :: l).
Proof. induction l as [|y l IH]; [reflexivity|]. cbn. destruct (le y x); [|reflexivity].
  rewrite IH. apply perm_swap. Qed.
Lemma insort_in x y l : In y (insort_by le x l) <-> y = x \/ In y l.
Proof. split.
  - intros H. apply (Permutation_in _ (insort_perm x l)) in H. cbn in H. intuition.
  - intros H. apply (Permutation_in _ (Permutation_sym (insort_perm x l))). cbn. intuition. Qed.
Lemma insort_length x l : length (insort_by le x l) = S (length l).
Proof. rewrite (Permutation_length (insort_perm x l)). reflexivity. Qed.
Lemma insort_not_nil x l : insort_by le x l <> [].
Proof. intros H. apply (f_equal (@length A)) in H. rewrite insort_length in H. discriminate. Qed.
Lemma fold_insort_perm xs l : Permutation (fold_left (fun acc x => insort_by le x acc) xs l) (xs ++ l).
Proof. revert l. induction xs as [|x xs IH]; intros l; [reflexivity|]. cbn [fold_left app].
  rewrite IH. rewrite insort_perm. symmetry. apply Permutation_middle. Qed.
Lemma sorted_by_perm l : Permutation (sorted_by le l) l.
Proof. unfold sorted_by. rewrite fold_insort_perm, app_nil_r. reflexivity. Qed.

Hypothesis le_total : forall a b, le a b = true \/ le b a = true.
Hypothesis le_trans : forall a b c, le a b = true -> le b c = true -> le a c = true.

Lemma insort_sorted x l : is_sorted l -> is_sorted (insort_by le x l).
Proof. induction 1 as [|y l H IH F]; [repeat constructor|]. cbn. destruct (le y x) eqn:E.
  - constructor; [exact IH|]. apply Forall_forall. intros z Hz. apply insort_in in Hz.
    destruct Hz as [->|Hz]; [exact E|]. rewrite Forall_forall in F. auto.
  - assert (X : le x y = true) by (destruct (le_total x y); congruence).
    constructor; [constructor; assumption|]. constructor; [exact X|].
    eapply Forall_impl; [|exact F]. intros z Hz. cbn beta in Hz. eapply le_trans; eassumption. Qed.
Lemma fold_insort_sorted xs : forall l, is_sorted l -> is_sorted (fold_left (fun acc x => insort_by le x acc) xs l).
Proof. induction xs as [|x xs IH]; intros l H; [exact H|]. cbn. apply IH, insort_sorted, H. Qed.
Lemma sorted_by_sorted l : is_sorted (sorted_by le l).
Proof. apply fold_insort_sorted. constructor. Qed.
End Sorting.

(** sorted lists with the same elements are equal when the order is antisymmetric *)
Lemma sorted_unique {A} (le : A -> A -> bool) :
  (forall a b, le a b = true -> le b a = true -> a = b) ->
  forall l l', is_sorted le l -> is_sorted le l' -> Permutation l l' -> l = l'.
Proof.
  intros anti. induction l as [|x l IH]; intros l' S S' P.
  - apply Permutation_nil in P. auto.
  - destruct l' as [|y l']; [apply Permutation_sym, Permutation_nil in P; discriminate|].
    inversion S as [|? ? S1 F1]; inversion S' as [|? ? S2 F2]; subst.
    rewrite Forall_forall in F1, F2.
    assert (E : x = y).
    { assert (I : In x (y :: l')) by (apply (Permutation_in _ P); left; reflexivity).
      assert (J : In y (x :: l)) by (apply (Permutation_in _ (Permutation_sym P)); left; reflexivity).
      destruct I as [I|I]; [congruence|]. destruct J as [J|J]; [congruence|]. apply anti; auto. }
    subst y. f_equal. apply IH; auto. eapply Permutation_cons_inv. exact P.
Qed.

Lemma Zleb_total a b : (a <=? b) = true \/ (b <=? a) = true.
Proof. lia. Qed.
Lemma Zleb_trans a b c : (a <=? b) = true -> (b <=? c) = true -> (a <=? c) = true.
Proof. lia. Qed.
Lemma Zleb_anti a b : (a <=? b) = true -> (b <=? a) = true -> a = b.
Proof. lia. Qed.
