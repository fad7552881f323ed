(** Tree.attach_leaves works alike on int and on Fraction values. *)
From Verif Require Import Base BaseLemmas Cost Utils Fractions FractionsProofs Load Tree TreeSpec HeapLemmas Search Expand Conclude.
From Coq Require Import QArith Qcanon.
Open Scope Z_scope.

Lemma numer_of_Z a : numer (frac_of_Z a) = a.
Proof. unfold numer, frac_of_Z. cbn. pose proof (Z.ggcd_gcd a 1) as G. pose proof (Z.ggcd_correct_divisors a 1) as D. destruct (Z.ggcd a 1) as [g [x y]]. cbn in *. rewrite Z.gcd_1_r in G. subst g. destruct D. lia. Qed.
Lemma denom_of_Z a : denom (frac_of_Z a) = 1.
Proof. unfold denom, frac_of_Z. cbn. pose proof (Z.ggcd_gcd a 1) as G. pose proof (Z.ggcd_correct_divisors a 1) as D. destruct (Z.ggcd a 1) as [g [x y]]. cbn in *. rewrite Z.gcd_1_r in G. subst g. destruct D as [_ D]. assert (y = 1) by lia. subst y. reflexivity. Qed.
Lemma frac_eqb_Z a b : frac_eqb (frac_of_Z a) (frac_of_Z b) = (a =? b).
Proof. unfold frac_eqb. rewrite !numer_of_Z, !denom_of_Z. cbn. apply andb_true_r. Qed.
Lemma frac_leb_Z a b : frac_leb (frac_of_Z a) (frac_of_Z b) = (a <=? b).
Proof.
  unfold frac_leb, Qle_bool. pose proof (numer_of_Z a) as A. pose proof (numer_of_Z b) as B. pose proof (denom_of_Z a) as C. pose proof (denom_of_Z b) as D.
  unfold numer, denom in *. rewrite A, B, C, D. rewrite !Z.mul_1_r. reflexivity.
Qed.
Lemma tuple_eqb_Z a : forall b, tuple_eqb (map frac_of_Z a) (map frac_of_Z b) = tuple_eqb a b.
Proof. induction a as [|x a IH]; intros [|y b]; try reflexivity. cbn [map tuple_eqb]. rewrite IH. change (v_eqb (frac_of_Z x) (frac_of_Z y)) with (frac_eqb (frac_of_Z x) (frac_of_Z y)). rewrite frac_eqb_Z. reflexivity. Qed.

Definition past_frac (l : fastlist (list Z)) : fastlist (list Qc) := FL (map (map frac_of_Z) (fl_items l)) (map (map frac_of_Z) (fl_set l)).
Lemma fl_append_frac x l : fl_append tuple_eqb (map frac_of_Z x) (past_frac l) = past_frac (fl_append tuple_eqb x l).
Proof.
  unfold fl_append. assert (E : fl_contains tuple_eqb (map frac_of_Z x) (past_frac l) = fl_contains tuple_eqb x l).
  { unfold fl_contains, past_frac. cbn [fl_set]. induction (fl_set l) as [|y s IH]; [reflexivity|]. cbn [map existsb]. rewrite tuple_eqb_Z, IH. reflexivity. }
  rewrite E. destruct (fl_contains tuple_eqb x l); [reflexivity|]. unfold past_frac. cbn [fl_items fl_set map]. rewrite map_app. reflexivity.
Qed.
Lemma tree_frac_eq t : tree_frac t = MkTree (t_roots t) (t_sources t) (t_levels t) (past_frac (t_past t)) (t_current_level t) (map frac_of_Z (t_source_values t)) (t_n_sources t) (t_size t).
Proof. reflexivity. Qed.

Notation frac_heap := (map node_frac).
Lemma get_frac h a : get (frac_heap h) a = node_frac (get h a).
Proof. unfold get. change (@dead_node Qc value_Qc) with (node_frac dead_node). apply map_nth. Qed.
Lemma upd_frac f g h a : (forall n, node_frac (f n) = g (node_frac n)) -> upd a g (frac_heap h) = frac_heap (upd a f h).
Proof. intros E. revert a. induction h as [|n h IH]; intros a; [destruct a; reflexivity|]. destruct a as [|a]; cbn; [rewrite E; reflexivity|rewrite IH; reflexivity]. Qed.
Lemma set_levels_frac k l : forall h, set_levels k l (frac_heap h) = frac_heap (set_levels k l h).
Proof. unfold set_levels. induction l as [|a l IH]; intros h; [reflexivity|]. cbn [fold_left]. rewrite (upd_frac (set_level (Some k))) by reflexivity. apply IH. Qed.

Lemma adopt_frac h s f : adopt (frac_heap h) s f = frac_heap (adopt h s f).
Proof.
  unfold adopt. rewrite get_frac. change (n_children (node_frac (get h f))) with (n_children (get h f)).
  assert (E : forall l g, fold_left (fun h c => upd c (set_parents [s]) (upd s (add_child c) h)) l (frac_heap g) =
    frac_heap (fold_left (fun h c => upd c (set_parents [s]) (upd s (add_child c) h)) l g)).
  { induction l as [|c l IH]; intros g; [reflexivity|]. cbn [fold_left]. rewrite (upd_frac (add_child c)) by reflexivity. rewrite (upd_frac (set_parents [s])) by reflexivity. apply IH. }
  rewrite E. set (g := fold_left _ _ h). rewrite get_frac. change (n_children (node_frac (get g s))) with (n_children (get g s)).
  destruct (3 <? length (n_children (get g s)))%nat; [|reflexivity]. apply (upd_frac (add_tag _)). reflexivity.
Qed.
Definition both (r : res (heap Z * tree Z)) : res (heap Qc * tree Qc) :=
  match r with Ok (h, t) => Ok (frac_heap h, tree_frac t) | Err e => Err e end.
Lemma tree_add_frac h t nodes cost : tree_add (frac_heap h) (tree_frac t) nodes cost = both (tree_add h t nodes cost).
Proof.
  unfold tree_add. destruct nodes as [|f nodes]; [reflexivity|]. cbv zeta. rewrite get_frac. change (n_parents (node_frac (get h f))) with (n_parents (get h f)).
  assert (N : forall a b, node_le (frac_heap h) a b = node_le h a b).
  { intros a b. unfold node_le. rewrite !get_frac. cbn. apply frac_leb_Z. }
  assert (I : forall a l, insort_by (node_le (frac_heap h)) a l = insort_by (node_le h) a l).
  { intros a l. induction l as [|b l IH]; [reflexivity|]. cbn [insort_by]. rewrite N, IH. reflexivity. }
  assert (F : forall ns l, fold_left (fun l a => insort_by (node_le (frac_heap h)) a l) ns l = fold_left (fun l a => insort_by (node_le h) a l) ns l).
  { induction ns as [|a ns IH]; intros l; [reflexivity|]. cbn [fold_left]. rewrite I. apply IH. }
  rewrite tree_frac_eq. cbn [t_roots t_sources t_levels t_past t_current_level t_source_values t_n_sources t_size]. rewrite F. set (src := fold_left _ _ _).
  cbn [both]. rewrite set_levels_frac, fl_append_frac, tree_frac_eq. cbn [t_roots t_sources t_levels t_past t_current_level t_source_values t_n_sources t_size].
  do 3 f_equal. unfold node_values. rewrite map_map. apply map_ext. intros a. rewrite get_frac. reflexivity.
Qed.
Lemma attach_loop_frac : forall fuel h t q, attach_loop fuel (frac_heap h) (tree_frac t) q = both (attach_loop fuel h t q).
Proof.
  induction fuel as [|fuel IH]; intros h t [|p q]; try reflexivity. cbn [attach_loop]. rewrite get_frac. change (n_children (node_frac (get h p))) with (n_children (get h p)).
  rewrite tree_add_frac. destruct (tree_add h t (n_children (get h p)) 0) as [[h' t']|e]; [|reflexivity]. cbn [both bind]. rewrite <- IH. do 2 f_equal. apply filter_ext. intros a. rewrite get_frac. reflexivity.
Qed.
Lemma attach_leaves_frac fuel h t leaves : attach_leaves fuel (frac_heap h) (tree_frac t) leaves = both (attach_leaves fuel h t leaves).
Proof.
  unfold attach_leaves. change (t_n_sources (tree_frac t)) with (t_n_sources t). change (t_sources (tree_frac t)) with (t_sources t). destruct (negb _); [reflexivity|].
  assert (E : forall l g, fold_left (fun h p => adopt h (fst p) (snd p)) l (frac_heap g) = frac_heap (fold_left (fun h p => adopt h (fst p) (snd p)) l g)).
  { induction l as [|c l IH]; intros g; [reflexivity|]. cbn [fold_left]. rewrite adopt_frac. apply IH. }
  rewrite E. rewrite <- attach_loop_frac. f_equal. apply filter_ext. intros a. rewrite get_frac. reflexivity.
Qed.
