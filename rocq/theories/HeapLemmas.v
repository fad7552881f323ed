(** Lemmas about heaps: reading after appending and updating. *)
From Verif Require Import Base BaseLemmas Cost Utils Fractions Load Tree TreeSpec.
Open Scope Z_scope.

Lemma upd_length {A} i (f : A -> A) l : length (upd i f l) = length l.
Proof. revert i. induction l as [|x l IH]; intros [|i]; cbn; auto. Qed.
Lemma nth_upd_same {A} i (f : A -> A) l d : (i < length l)%nat -> nth i (upd i f l) d = f (nth i l d).
Proof. revert i. induction l as [|x l IH]; intros [|i] H; cbn in *; try lia; [reflexivity|]. apply IH. lia. Qed.
Lemma nth_upd_other {A} i j (f : A -> A) l d : i <> j -> nth j (upd i f l) d = nth j l d.
Proof. revert i j. induction l as [|x l IH]; intros [|i] [|j] H; cbn; try congruence; auto. Qed.

Section H.
Context {V : Type} {VV : Value V}.
Implicit Types h : heap V.

Lemma get_upd_same h a f : (a < length h)%nat -> get (upd a f h) a = f (get h a).
Proof. apply nth_upd_same. Qed.
Lemma get_upd_other h a b f : a <> b -> get (upd a f h) b = get h b.
Proof. apply nth_upd_other. Qed.
Lemma get_app_l h h' a : (a < length h)%nat -> get (h ++ h') a = get h a.
Proof. intros H. unfold get. apply app_nth1. exact H. Qed.
Lemma get_app_r h h' a : (length h <= a)%nat -> get (h ++ h') a = get h' (a - length h).
Proof. intros H. unfold get. apply app_nth2. exact H. Qed.
Lemma get_app_new h n : get (h ++ [n]) (length h) = n.
Proof. rewrite get_app_r by lia. rewrite Nat.sub_diag. reflexivity. Qed.
Lemma upd_app_l h h' a f : (a < length h)%nat -> upd a f (h ++ h') = upd a f h ++ h'.
Proof. revert a. induction h as [|x h IH]; intros [|a] H; cbn in *; try lia; [reflexivity|]. f_equal. apply IH. lia. Qed.
Lemma upd_app_r h h' a f : (length h <= a)%nat -> upd a f (h ++ h') = h ++ upd (a - length h) f h'.
Proof. revert a. induction h as [|x h IH]; intros a H; [cbn; rewrite Nat.sub_0_r; reflexivity|].
  destruct a as [|a]; cbn in *; [lia|]. f_equal. apply IH. lia. Qed.

(** several updates of the same kind *)
Lemma fold_upd_length f l : forall h, length (fold_left (fun h a => upd a (f a) h) l h) = length h.
Proof. induction l as [|a l IH]; intros h; [reflexivity|]. cbn. rewrite IH. apply upd_length. Qed.
Lemma get_fold_upd_other f l b : forall h, ~ In b l -> get (fold_left (fun h a => upd a (f a) h) l h) b = get h b.
Proof. induction l as [|a l IH]; intros h H; [reflexivity|]. cbn [fold_left In] in *. rewrite IH by tauto.
  apply get_upd_other. tauto. Qed.
Lemma get_fold_upd_in f l b : forall h, NoDup l -> In b l -> (b < length h)%nat ->
  get (fold_left (fun h a => upd a (f a) h) l h) b = f b (get h b).
Proof. induction l as [|a l IH]; intros h N H B; [destruct H|]. inversion N; subst. cbn [fold_left].
  destruct H as [->|H].
  - rewrite get_fold_upd_other by assumption. apply get_upd_same. exact B.
  - rewrite IH by (auto; rewrite upd_length; exact B). f_equal. apply get_upd_other. intros ->. contradiction. Qed.

Lemma set_levels_length l nodes h : length (set_levels l nodes h) = length h.
Proof. apply (fold_upd_length (fun _ => set_level (Some l))). Qed.
Lemma get_set_levels_other l nodes h b : ~ In b nodes -> get (set_levels l nodes h) b = get h b.
Proof. apply (get_fold_upd_other (fun _ => set_level (Some l))). Qed.
Lemma get_set_levels_in l nodes h b : In b nodes -> (b < length h)%nat ->
  get (set_levels l nodes h) b = set_level (Some l) (get h b).
Proof.
  unfold set_levels. revert h. induction nodes as [|a nodes IH]; intros h H B; [destruct H|]. cbn [fold_left].
  destruct (in_dec Nat.eq_dec b nodes) as [I|I].
  - rewrite IH by (auto; rewrite upd_length; exact B). destruct (Nat.eq_dec a b) as [->|N].
    + rewrite get_upd_same by exact B. reflexivity.
    + rewrite get_upd_other by exact N. reflexivity.
  - destruct H as [->|H]; [|contradiction].
    etransitivity; [apply (get_fold_upd_other (fun _ => set_level (Some l))); exact I|].
    apply get_upd_same. exact B.
Qed.
(** everything but the level is kept *)
Lemma get_set_levels {A} (f : node V -> A) l nodes h b :
  (forall o n, f (set_level o n) = f n) -> f (get (set_levels l nodes h) b) = f (get h b).
Proof. intros Hf. destruct (in_dec Nat.eq_dec b nodes) as [I|I]; [|rewrite get_set_levels_other by exact I; reflexivity].
  destruct (Nat.lt_ge_cases b (length h)) as [B|B].
  - rewrite get_set_levels_in by assumption. apply Hf.
  - unfold get. rewrite !nth_overflow; [reflexivity|exact B|rewrite set_levels_length; exact B]. Qed.

Lemma tuple_eqb_eq : (forall x y : V, v_eqb x y = true <-> x = y) -> forall a b : list V, tuple_eqb a b = true <-> a = b.
Proof. intros E. induction a as [|x a IH]; intros [|y b]; cbn; try (split; [discriminate|discriminate]); [tauto|].
  rewrite andb_true_iff, E, IH. split; [intros [-> ->]; reflexivity|intros [= -> ->]; auto]. Qed.
End H.

(** [h'] is [h] with new nodes at the end *)
Definition extends {V} (h h' : heap V) : Prop := exists l, h' = h ++ l.
Lemma extends_refl {V} (h : heap V) : extends h h.
Proof. exists []. rewrite app_nil_r. reflexivity. Qed.
Lemma extends_trans {V} (a b c : heap V) : extends a b -> extends b c -> extends a c.
Proof. intros [l ->] [l' ->]. exists (l ++ l'). rewrite app_assoc. reflexivity. Qed.
Lemma extends_app {V} (h l : heap V) : extends h (h ++ l).
Proof. exists l. reflexivity. Qed.
Lemma extends_length {V} (h h' : heap V) : extends h h' -> (length h <= length h')%nat.
Proof. intros [l ->]. rewrite app_length. lia. Qed.
Lemma extends_get {V} {VV : Value V} (h h' : heap V) a : extends h h' -> (a < length h)%nat -> get h' a = get h a.
Proof. intros [l ->] H. apply get_app_l. exact H. Qed.
(** updating a new node keeps the old ones *)
Lemma extends_upd {V} (h h' : heap V) a f : extends h h' -> (length h <= a)%nat -> extends h (upd a f h').
Proof. intros [l ->] H. rewrite upd_app_r by exact H. apply extends_app. Qed.
Lemma extends_fold_upd {V} (h : heap V) g l : forall h', extends h h' -> Forall (fun a => (length h <= a)%nat) l ->
  extends h (fold_left (fun h a => upd a (g a) h) l h').
Proof. induction l as [|a l IH]; intros h' E F; [exact E|]. inversion F; subst. cbn. apply IH; [|assumption].
  apply extends_upd; assumption. Qed.
Lemma extends_set_levels {V} (h h' : heap V) k l : extends h h' -> Forall (fun a => (length h <= a)%nat) l ->
  extends h (set_levels k l h').
Proof. apply (extends_fold_upd h (fun _ => set_level (Some k))). Qed.
