(** The flow through a partly expanded network, and its mergers. *)
From Verif Require Import Base BaseLemmas Cost CostSpec CostProofs Utils Fractions FractionsProofs Load Tree TreeSpec HeapLemmas Expand ExpandSpec LevelProofs ExpandProofs
  FrameProofs MergeProofs LocalProofs MergeSafe TraverseSafe FlowSpec.
From Coq Require Import QArith Qcanon.
Open Scope Z_scope.

(** ** Sums of flows *)
Lemma qcsum_perm l l' : Permutation l l' -> qcsum l = qcsum l'.
Proof. induction 1 as [|x l l' _ IH|x y l|]; [reflexivity| | |congruence]; unfold qcsum in *; cbn [fold_right]; [rewrite IH; reflexivity|ring]. Qed.
Lemma foz_1 : frac_of_Z 1 = 1%Qc.
Proof. apply Qc_is_canon. reflexivity. Qed.
Lemma qcsum_repeat (f : nat -> Qc) a k : qcsum (map f (repeat a k)) = (frac_of_Z (Z.of_nat k) * f a)%Qc.
Proof.
  induction k as [|k IH]; cbn [repeat map qcsum fold_right]; [change (Z.of_nat 0) with 0; rewrite foz_0; ring|]. fold (qcsum (map f (repeat a k))).
  rewrite IH, Nat2Z.inj_succ, <- Z.add_1_r, foz_plus, foz_1. ring.
Qed.
Lemma qcsum_nonneg l : (forall x, In x l -> (Q2Qc 0 <= x)%Qc) -> (Q2Qc 0 <= qcsum l)%Qc.
Proof.
  induction l as [|x l IH]; intros F; [apply Qcle_refl|]. cbn. apply nonneg_plus; [apply F; left; reflexivity|apply IH; intros y I; apply F; right; exact I].
Qed.
Lemma qc_add_le x y : (Q2Qc 0 <= y)%Qc -> (x <= x + y)%Qc.
Proof. intros H. rewrite <- (Qcplus_0_r x) at 1. apply Qcplus_le_compat; [apply Qcle_refl|exact H]. Qed.
Lemma qc_pos_plus x y : (Q2Qc 0 < x)%Qc -> (Q2Qc 0 <= y)%Qc -> (Q2Qc 0 < x + y)%Qc.
Proof. intros A B. eapply Qclt_le_trans; [exact A|]. apply qc_add_le, B. Qed.
Lemma qc_pos_div x k : (Q2Qc 0 < x)%Qc -> 0 < k -> (Q2Qc 0 < x / frac_of_Z k)%Qc.
Proof.
  intros A K. assert (E : (x / frac_of_Z k * frac_of_Z k)%Qc = x) by (field; apply foz_neq0; lia).
  apply Qcnot_le_lt. intros B. apply (Qclt_not_le _ _ A). rewrite <- E. assert (F : (Q2Qc 0 <= frac_of_Z k)%Qc) by (apply foz_nonneg; lia).
  replace (Q2Qc 0) with (Q2Qc 0 * frac_of_Z k)%Qc by ring. apply Qcmult_le_compat_r; assumption.
Qed.
Lemma foz_pos k : 0 < k -> (Q2Qc 0 < frac_of_Z k)%Qc.
Proof. intros H. apply Qcnot_le_lt. rewrite <- foz_0. intros B. apply foz_le in B. lia. Qed.
Lemma qc_div_1 x : (x / frac_of_Z 1)%Qc = x.
Proof. rewrite foz_1. field. discriminate. Qed.

Lemma cnt_perm x l l' : Permutation l l' -> cnt x l = cnt x l'.
Proof. intros H. revert x. apply (Permutation_count_occ Nat.eq_dec l l'), H. Qed.
Lemma cnt_in x l : In x l <-> (0 < cnt x l)%nat.
Proof. rewrite (count_occ_In Nat.eq_dec). lia. Qed.
Lemma cnt_out x l : ~ In x l -> cnt x l = 0%nat.
Proof. apply (count_occ_not_In Nat.eq_dec). Qed.
Lemma cnt_repeat x k : cnt x (repeat x k) = k.
Proof. apply count_occ_repeat_eq. reflexivity. Qed.
Lemma cnt_repeat_other x y k : x <> y -> cnt x (repeat y k) = 0%nat.
Proof. intros H. apply count_occ_repeat_neq. congruence. Qed.
Lemma perm_in (l l' : list nat) x : Permutation l l' -> In x l -> In x l'.
Proof. intros H. apply (Permutation_in x H). Qed.

Lemma hands_on_perm K K' T B x : Permutation (K x) (K' x) -> (forall y, In y (K x) -> Permutation (K y) (K' y)) -> hands_on K T B x -> hands_on K' T B x.
Proof.
  intros E F [L S|y z s H1 H2 H3 H4 H5|y z s H1 H2 H3 H4 H5 H6].
  - apply on_equally; rewrite <- (Permutation_length E); [exact L|]. intros y I. apply S, (perm_in _ _ _ (Permutation_sym E) I).
  - apply (on_overflowing _ _ _ _ y z s); try assumption. rewrite <- E. exact H1.
  - apply (on_backing_up _ _ _ _ y z s); try assumption; [rewrite <- E; exact H1|]. apply (perm_in _ _ _ (F y (perm_in _ _ _ (Permutation_sym H1) (or_introl eq_refl))) H3).
Qed.

(** ** Sums of counts *)
Lemma list_sum_perm l l' : Permutation l l' -> list_sum l = list_sum l'.
Proof. induction 1 as [|x l l' _ IH|x y l|]; [reflexivity| | |congruence]; cbn [list_sum fold_right]; unfold list_sum in *; lia. Qed.
Lemma nodup_join (m R : list nat) : NoDup m -> NoDup R -> (forall x, In x m -> ~ In x R) -> NoDup (m ++ R).
Proof.
  induction m as [|y m IH]; intros N1 N2 D; [exact N2|]. inversion N1 as [|? ? Ny N3]; subst. cbn [app]. constructor; [|apply IH; [exact N3|exact N2|intros x I; apply D; right; exact I]].
  intros I. apply in_app_or in I. destruct I as [I|I]; [contradiction|]. apply (D y); [left; reflexivity|exact I].
Qed.
Lemma perm_rest (l m : list nat) : NoDup l -> NoDup m -> (forall x, In x m -> In x l) -> exists R, Permutation l (m ++ R) /\ NoDup R /\ forall x, In x R <-> In x l /\ ~ In x m.
Proof.
  intros Nl Nm I. set (R := filter (fun x => if in_dec Nat.eq_dec x m then false else true) l).
  assert (IR : forall x, In x R <-> In x l /\ ~ In x m) by (intros x; unfold R; rewrite filter_In; destruct (in_dec Nat.eq_dec x m); intuition discriminate).
  exists R. split; [|split; [apply NoDup_filter, Nl|exact IR]]. apply NoDup_Permutation; [exact Nl| |].
  - apply nodup_join; [exact Nm|apply NoDup_filter, Nl|]. intros x J K. apply IR in K. apply K, J.
  - intros x. rewrite in_app_iff, IR. destruct (in_dec Nat.eq_dec x m) as [J|J]; [|tauto]. specialize (I x J). tauto.
Qed.

Section Flow.
Variables (h0 : heap Qc) (P : nat -> Prop) (roots : list nat) (pend : nat -> nat) (total : nat).
Hypothesis New : forall x, (length h0 <= x)%nat -> P x.
Hypothesis Kids0 : forall x c, old h0 P x -> In c (kids h0 x) -> old h0 P c.
Hypothesis Roots0 : forall r, In r roots -> old h0 P r.
Definition val (x : nat) : Qc := n_value (get h0 x).
Hypothesis Value0 : forall x, old h0 P x -> (Q2Qc 0 < val x)%Qc.
Definition input (y : nat) : Qc := if in_dec Nat.eq_dec y roots then val y else Q2Qc 0.
Definition inside (len : nat) (x : nat) : Prop := P x /\ (x < len)%nat.

(** the machines at a node: a splitter if several belts leave it, mergers for the
    belts into it; a source is one such belt *)
Definition source (x : nat) : nat := if in_dec Nat.eq_dec x roots then 1%nat else 0%nat.
Definition fan_in (K Pa : nat -> list nat) (x : nat) : nat := (length (Pa x) + cnt x (K x) + source x)%nat.
Definition at_node (K Pa : nat -> list nat) (x : nat) : nat := ((if 2 <=? length (K x) then 1 else 0) + fan_in K Pa x / 2)%nat.

(** [K], [Pa]: children and parents; [Q]: the nodes whose operation may still be
    unexpanded; [T]: the flow through a node; [B]: the flow on a belt *)
Record fg (Q : nat -> Prop) (len : nat) (K Pa : nat -> list nat) (T : nat -> Qc) (B : nat -> nat -> Qc) : Prop := {
  fg_len : (length h0 <= len)%nat;
  fg_kids : forall x c, inside len x -> In c (K x) -> inside len c;
  fg_pars : forall x p, inside len x -> In p (Pa x) -> inside len p;
  fg_links : forall x y, inside len x -> inside len y -> x <> y -> cnt y (K x) = cnt x (Pa y);
  fg_self : forall x, inside len x -> ~ In x (Pa x);
  fg_own : forall x, old h0 P x -> ~ In x (K x);
  fg_bal : forall y, inside len y -> T y = (input y + qcsum (map (fun p => B p y) (Pa y)) + frac_of_Z (Z.of_nat (cnt y (K y))) * B y y)%Qc;
  fg_val : forall x, old h0 P x -> ~ has_op h0 x \/ Q x -> T x = val x;
  fg_wait : forall x c, waiting h0 P Q x -> In c (kids h0 x) -> B x c = val c;
  fg_splits : forall x, inside len x -> ~ waiting h0 P Q x -> K x <> [] -> hands_on K T B x;
  fg_ends : forall x, inside len x -> (K x = [] <-> old h0 P x /\ kids h0 x = []);
  fg_pos : forall x, inside len x -> (Q2Qc 0 < T x)%Qc /\ forall c, In c (K x) -> (Q2Qc 0 < B x c)%Qc;
  fg_reach : forall x, inside len x -> reached K roots x;
  fg_fan : forall x, inside len x -> ~ old h0 P x -> (length (Pa x) + cnt x (K x) <= 3)%nat;
  fg_limit : forall M, (frac_of_Z 1200 <= M)%Qc -> (forall x, old h0 P x -> (val x <= M)%Qc) -> forall x, inside len x -> (T x <= M)%Qc;
  fg_count : forall nodes todo, NoDup nodes -> (forall x, In x nodes <-> inside len x) -> NoDup todo -> (forall x, In x todo <-> waiting h0 P Q x) ->
    (list_sum (map (at_node K Pa) nodes) + list_sum (map pend todo) = total)%nat
}.

Lemma old_inside len x : (length h0 <= len)%nat -> old h0 P x -> inside len x.
Proof. clear. intros L [A B]. split; [exact A|lia]. Qed.
Lemma input_nonneg y : (Q2Qc 0 <= input y)%Qc.
Proof. unfold input. destruct (in_dec _ _ _) as [I|_]; [apply Qclt_le_weak, Value0, Roots0, I|apply Qcle_refl]. Qed.

(** a positive flow on every belt that arrives *)
Lemma fg_into Q len K Pa T B y p : fg Q len K Pa T B -> inside len y -> In p (Pa y) -> inside len p /\ p <> y /\ In y (K p) /\ (Q2Qc 0 < B p y)%Qc.
Proof.
  intros F Hy I. pose proof (fg_pars _ _ _ _ _ _ F y p Hy I) as Hp. assert (Ne : p <> y) by (intros ->; apply (fg_self _ _ _ _ _ _ F y Hy I)).
  assert (J : In y (K p)) by (apply cnt_in; rewrite (fg_links _ _ _ _ _ _ F p y Hp Hy Ne); apply cnt_in, I). repeat split; try assumption; try apply Hp. apply (fg_pos _ _ _ _ _ _ F p Hp), J.
Qed.

(** the order of children does not matter *)
Lemma fg_perm Q len K K' Pa T B : (forall x, inside len x -> Permutation (K x) (K' x)) -> fg Q len K Pa T B -> fg Q len K' Pa T B.
Proof.
  intros E F. pose proof F as F'. destruct F'.
  assert (IK : forall x c, inside len x -> In c (K' x) -> In c (K x)) by (intros x c Hx; apply perm_in, Permutation_sym, E, Hx).
  constructor; auto.
  - intros x c Hx I. apply (fg_kids0 x); [exact Hx|]. apply IK; assumption.
  - intros x y Hx Hy Ne. rewrite <- (cnt_perm y _ _ (E x Hx)). apply fg_links0; assumption.
  - intros x Ox I. apply (fg_own0 x Ox). apply IK; [apply old_inside; assumption|exact I].
  - intros y Hy. rewrite <- (cnt_perm y _ _ (E y Hy)). apply fg_bal0, Hy.
  - intros x Hx W N. apply (hands_on_perm K); [apply E, Hx|intros y I; apply E, (fg_kids0 x y Hx I)|]. apply fg_splits0; try assumption. intros EK. apply N. pose proof (E x Hx) as Ex. rewrite EK in Ex. apply Permutation_nil, Ex.
  - intros x Hx. rewrite <- (fg_ends0 x Hx). split; intros EK; [pose proof (Permutation_sym (E x Hx)) as Ex|pose proof (E x Hx) as Ex]; rewrite EK in Ex; apply Permutation_nil in Ex; exact Ex.
  - intros x Hx. destruct (fg_pos0 x Hx) as [X1 X2]. split; [exact X1|]. intros c I. apply X2, IK; assumption.
  - intros x Hx. specialize (fg_reach0 x Hx). clear Hx. assert (X : inside len x /\ reached K' roots x); [|apply X]. induction fg_reach0 as [r I|x y _ [Hx IH] I].
    + split; [apply old_inside; [assumption|apply Roots0, I]|apply reached_root, I].
    + split; [apply (fg_kids0 x y Hx I)|]. apply (reached_out _ _ x y IH). apply (perm_in _ _ _ (E x Hx) I).
  - intros x Hx No. rewrite <- (cnt_perm x _ _ (E x Hx)). apply fg_fan0; assumption.
  - intros nodes todo N1 I1 N2 I2. rewrite <- (fg_count0 nodes todo N1 I1 N2 I2). f_equal. f_equal. apply map_ext_in. intros x I. apply I1 in I.
    unfold at_node, fan_in. rewrite <- (cnt_perm x _ _ (E x I)), <- (Permutation_length (E x I)). reflexivity.
Qed.

Lemma fg_ext Q len K Pa Pa' T B : (forall x, inside len x -> Pa x = Pa' x) -> fg Q len K Pa T B -> fg Q len K Pa' T B.
Proof.
  intros E F. pose proof F as F'. destruct F'. constructor; auto.
  - intros x p Hx I. rewrite <- E in I by exact Hx. apply (fg_pars0 x p Hx I).
  - intros x y Hx Hy N. rewrite <- E by exact Hy. apply fg_links0; assumption.
  - intros x Hx I. rewrite <- E in I by exact Hx. apply (fg_self0 x Hx I).
  - intros y Hy. rewrite <- E by exact Hy. apply fg_bal0, Hy.
  - intros x Hx N. rewrite <- E by exact Hx. apply fg_fan0; assumption.
  - intros nodes todo N1 I1 N2 I2. rewrite <- (fg_count0 nodes todo N1 I1 N2 I2). f_equal. f_equal. apply map_ext_in. intros x I. apply I1 in I.
    unfold at_node, fan_in. rewrite <- E by exact I. reflexivity.
Qed.
(** [Q] matters for old nodes with an operation only *)
Lemma fg_less (Q Q' : nat -> Prop) len K Pa T B : (forall x, old h0 P x -> has_op h0 x -> Q x <-> Q' x) -> (forall x, old h0 P x -> has_op h0 x \/ ~ has_op h0 x) -> fg Q len K Pa T B -> fg Q' len K Pa T B.
Proof.
  intros E D F. pose proof F as F'. destruct F'. constructor; auto.
  - intros x Ox H. destruct (D x Ox) as [Y|N]; [|apply fg_val0; auto]. destruct H as [H|H]; [contradiction|]. apply fg_val0; [exact Ox|right; apply E; assumption].
  - intros x c (W1 & W2 & W3) I. apply fg_wait0; [|exact I]. split; [exact W1|]. split; [exact W2|apply E; assumption].
  - intros x Hx W N. apply fg_splits0; try assumption. intros (W1 & W2 & W3). apply W. split; [exact W1|]. split; [exact W2|apply E; assumption].
  - intros nodes todo N1 I1 N2 I2. apply fg_count0; try assumption. intros x. rewrite I2. split; intros (W1 & W2 & W3); (split; [exact W1|]; split; [exact W2|apply E; assumption]).
Qed.

(** ** A merger takes three belts *)
Section Merge.
Variables (Q : nat -> Prop) (len : nat) (K Pa : nat -> list nat) (T : nat -> Qc) (B : nat -> nat -> Qc) (a x y z : nat) (rest : list nat) (K' : nat -> list nat).
Hypothesis F : fg Q len K Pa T B.
Hypothesis Oa : old h0 P a.
Hypothesis Ea : Pa a = rest ++ [z; y; x].
Let moved (w : nat) : nat := cnt w [x; y; z].
Hypothesis EK : forall w, inside len w -> Permutation (K' w ++ repeat a (moved w)) (K w ++ repeat len (moved w)).
Hypothesis Ek : K' len = [a].
Definition mg_pars (w : nat) : list nat := if (w =? a)%nat then rest ++ [len] else if (w =? len)%nat then [x; y; z] else Pa w.
Definition mg_sum : Qc := (B x a + (B y a + (B z a + 0)))%Qc.
Definition mg_through (w : nat) : Qc := if (w =? len)%nat then mg_sum else T w.
Definition mg_belt (p w : nat) : Qc := if (w =? len)%nat then B p a else if (p =? len)%nat then mg_sum else B p w.

Let Ha : inside len a.
Proof. apply old_inside; [apply (fg_len _ _ _ _ _ _ F)|exact Oa]. Qed.
Let Na : len <> a.
Proof. destruct Ha. lia. Qed.
Let IP w : In w [x; y; z] -> In w (Pa a).
Proof. intros I. rewrite Ea. apply in_or_app. right. cbn in *. tauto. Qed.
Let moved_in w : (0 < moved w)%nat -> In w (Pa a) /\ inside len w /\ w <> a /\ In a (K w).
Proof. intros L. apply cnt_in, IP in L. destruct (fg_into _ _ _ _ _ _ a w F Ha L) as (H1 & H2 & H3 & _). auto. Qed.
Let moved_le w : (moved w <= cnt w (Pa a))%nat.
Proof. rewrite Ea, cnt_app. unfold moved. cbn [count_occ]. destruct (Nat.eq_dec z w), (Nat.eq_dec y w), (Nat.eq_dec x w); lia. Qed.
Let moved_eq w : cnt w (Pa a) = (cnt w rest + moved w)%nat.
Proof. rewrite Ea, cnt_app. unfold moved. cbn [count_occ]. destruct (Nat.eq_dec z w), (Nat.eq_dec y w), (Nat.eq_dec x w); lia. Qed.
Let out_len w : inside len w -> ~ In len (K w).
Proof. intros Hw I. pose proof (fg_kids _ _ _ _ _ _ F w len Hw I) as [_ J]. lia. Qed.

Let cnt_a w : inside len w -> (cnt a (K' w) + moved w = cnt a (K w))%nat.
Proof. intros Hw. pose proof (cnt_perm a _ _ (EK w Hw)) as E. rewrite !cnt_app, cnt_repeat, (cnt_repeat_other a len) in E by congruence. lia. Qed.
Let cnt_l w : inside len w -> cnt len (K' w) = moved w.
Proof. intros Hw. pose proof (cnt_perm len _ _ (EK w Hw)) as E. rewrite !cnt_app, cnt_repeat, (cnt_repeat_other len a) in E by exact Na. rewrite (cnt_out len (K w)) in E by (apply out_len, Hw). lia. Qed.
Let cnt_o w v : inside len w -> v <> a -> v <> len -> cnt v (K' w) = cnt v (K w).
Proof. intros Hw N1 N2. pose proof (cnt_perm v _ _ (EK w Hw)) as E. rewrite !cnt_app, !cnt_repeat_other in E by assumption. lia. Qed.
Let kids_len w : inside len w -> length (K' w) = length (K w).
Proof. intros Hw. pose proof (Permutation_length (EK w Hw)) as E. rewrite !app_length, !repeat_length in E. lia. Qed.
Let kids_in w v : inside len w -> In v (K' w) -> (v = len /\ In a (K w)) \/ (v <> len /\ In v (K w)).
Proof.
  intros Hw I. apply cnt_in in I. destruct (Nat.eq_dec v len) as [->|N].
  - left. split; [reflexivity|]. rewrite cnt_l in I by exact Hw. apply moved_in, I.
  - right. split; [exact N|]. apply cnt_in. destruct (Nat.eq_dec v a) as [->|N2]; [pose proof (cnt_a w Hw); lia|]. rewrite cnt_o in I by assumption. exact I.
Qed.
Let same w : inside len w -> moved w = 0%nat -> Permutation (K' w) (K w).
Proof. intros Hw E. pose proof (EK w Hw) as X. rewrite E in X. cbn [repeat] in X. rewrite !app_nil_r in X. exact X. Qed.
Let ks w : inside len w -> cnt w (K' w) = cnt w (K w).
Proof.
  intros Hw. assert (Nl : w <> len) by (destruct Hw; lia). destruct (Nat.eq_dec w a) as [->|Nw]; [|apply cnt_o; assumption]. pose proof (cnt_a a Hw) as E.
  assert (M : moved a = 0%nat) by (destruct (Nat.eq_dec (moved a) 0) as [M|M]; [exact M|]; destruct (moved_in a) as (_ & _ & N & _); [lia|congruence]). lia.
Qed.
Let back w : inside len w -> In w (K w) -> In w (K' w).
Proof. intros Hw I. apply cnt_in. rewrite ks by exact Hw. apply cnt_in, I. Qed.

Let splits' w : inside len w -> hands_on K T B w -> hands_on K' mg_through mg_belt w.
Proof.
  intros Hw S. assert (Nl : (w =? len)%nat = false) by (apply Nat.eqb_neq; destruct Hw; lia).
  assert (Tw : mg_through w = T w) by (unfold mg_through; rewrite Nl; reflexivity).
  assert (Bo : forall v, v <> len -> mg_belt w v = B w v) by (intros v N; unfold mg_belt; rewrite (proj2 (Nat.eqb_neq v len) N), Nl; reflexivity).
  assert (Bl : mg_belt w len = B w a) by (unfold mg_belt; rewrite Nat.eqb_refl; reflexivity).
  assert (Two : forall u v, Permutation (K w) [u; v] -> u <> v -> (moved w = 0%nat /\ Permutation (K' w) [u; v]) \/ (u = a /\ Permutation (K' w) [len; v]) \/ (v = a /\ Permutation (K' w) [u; len])).
  { intros u v E N. destruct (Nat.eq_dec (moved w) 0) as [M|M]; [left; split; [exact M|]; rewrite (same w Hw M); exact E|right].
    assert (C : cnt a (K w) = cnt a [u; v]) by (apply cnt_perm, E). pose proof (cnt_a w Hw) as CA. cbn [count_occ] in C.
    pose proof (EK w Hw) as X. rewrite E in X. destruct (Nat.eq_dec u a) as [->|N1], (Nat.eq_dec v a) as [->|N2]; try congruence; try lia.
    - left. split; [reflexivity|]. replace (moved w) with 1%nat in X by lia. cbn [repeat app] in X. apply (Permutation_app_inv_r [a]). rewrite X. cbn. apply (Permutation_trans (l' := [v; len; a])); [|apply perm_swap].
      apply (Permutation_trans (l' := [v; a; len])); [apply perm_swap|apply perm_skip, perm_swap].
    - right. split; [reflexivity|]. replace (moved w) with 1%nat in X by lia. cbn [repeat app] in X. apply (Permutation_app_inv_r [a]). rewrite X. cbn. apply perm_skip, perm_swap. }
  assert (In2 : forall u v, Permutation (K w) [u; v] -> u <> len /\ v <> len).
  { intros u v E. split; intros ->; apply (out_len w Hw); apply (perm_in _ _ _ (Permutation_sym E)); cbn; auto. }
  destruct S as [L S|u v s H1 H2 H3 H4 H5|u v s H1 H2 H3 H4 H5 H6].
  - apply on_equally; rewrite kids_len by exact Hw; [exact L|]. intros v I. rewrite Tw. destruct (kids_in w v Hw I) as [[-> J]|[N J]]; [rewrite Bl|rewrite Bo by exact N]; apply S, J.
  - destruct (In2 _ _ H1) as [Lu Lv]. destruct (Two u v H1 H2) as [[_ E]|[[-> E]|[-> E]]].
    + apply (on_overflowing _ _ _ _ u v s); try assumption; rewrite ?Tw, Bo by assumption; assumption.
    + apply (on_overflowing _ _ _ _ len v s); try assumption; [congruence|rewrite Bl; exact H4|rewrite Tw, Bo by assumption; exact H5].
    + apply (on_overflowing _ _ _ _ u len s); try assumption; [rewrite Bo by assumption; exact H4|rewrite Tw, Bl; exact H5].
  - destruct (In2 _ _ H1) as [Lu Lv]. assert (Hu : inside len u) by (apply (fg_kids _ _ _ _ _ _ F w u Hw); apply (perm_in _ _ _ (Permutation_sym H1)); left; reflexivity).
    assert (Tu : mg_through u = T u) by (unfold mg_through; rewrite (proj2 (Nat.eqb_neq u len) Lu); reflexivity).
    destruct (Two u v H1 H2) as [[_ E]|[[-> E]|[-> E]]].
    + apply (on_backing_up _ _ _ _ u v s); try assumption; [apply back; assumption|rewrite Tu; exact H5|rewrite Tw, !Bo by assumption; exact H6].
    + exfalso. apply (fg_own _ _ _ _ _ _ F a Oa H3).
    + apply (on_backing_up _ _ _ _ u len s); try assumption; [apply back; assumption|rewrite Tu; exact H5|rewrite Tw, Bl, Bo by assumption; exact H6].
Qed.

Let from w : inside len w -> reached K' roots w.
Proof.
  intros Hw. assert (X : inside len w /\ reached K' roots w); [|apply X]. pose proof (fg_reach _ _ _ _ _ _ F w Hw) as R. clear Hw. induction R as [r I|u v _ [Hu IH] I].
  - split; [apply old_inside; [apply (fg_len _ _ _ _ _ _ F)|apply Roots0, I]|apply reached_root, I].
  - pose proof (fg_kids _ _ _ _ _ _ F u v Hu I) as Hv. split; [exact Hv|]. apply cnt_in in I. destruct (Nat.eq_dec v a) as [->|N].
    + destruct (Nat.eq_dec (moved u) 0) as [M|M].
      * apply (reached_out _ _ u a IH). apply cnt_in. pose proof (cnt_a u Hu). lia.
      * apply (reached_out _ _ len a); [|rewrite Ek; left; reflexivity]. apply (reached_out _ _ u len IH). apply cnt_in. rewrite cnt_l by exact Hu. lia.
    + apply (reached_out _ _ u v IH). apply cnt_in. rewrite cnt_o; [exact I|exact Hu|exact N|destruct Hv; lia].
Qed.

Let sum_pos : (Q2Qc 0 < mg_sum)%Qc /\ (mg_sum <= T a)%Qc.
Proof.
  assert (X : forall w, In w (Pa a) -> (Q2Qc 0 < B w a)%Qc) by (intros w I; apply (fg_into _ _ _ _ _ _ a w F Ha I)).
  pose proof (X x (IP x (or_introl eq_refl))) as X1. pose proof (X y (IP y (or_intror (or_introl eq_refl)))) as X2. pose proof (X z (IP z (or_intror (or_intror (or_introl eq_refl))))) as X3.
  unfold mg_sum. split; [apply qc_pos_plus; [exact X1|]; apply nonneg_plus; [apply Qclt_le_weak, X2|]; apply nonneg_plus; [apply Qclt_le_weak, X3|apply Qcle_refl]|].
  rewrite (fg_bal _ _ _ _ _ _ F a Ha), Ea, map_app, qcsum_app. cbn [map qcsum fold_right]. rewrite (cnt_out a (K a)) by (apply (fg_own _ _ _ _ _ _ F a Oa)). change (Z.of_nat 0) with 0. rewrite foz_0.
  assert (Y : (Q2Qc 0 <= input a + qcsum (map (fun p => B p a) rest))%Qc).
  { apply nonneg_plus; [apply input_nonneg|]. apply qcsum_nonneg. intros v I. apply in_map_iff in I. destruct I as (w & <- & I). apply Qclt_le_weak, X. rewrite Ea. apply in_or_app. left. exact I. }
  eapply Qcle_trans; [apply (qc_add_le _ _ Y)|]. match goal with |- (?u <= ?v)%Qc => replace v with u by ring end; apply Qcle_refl.
Qed.

Lemma fg_merge : fg Q (S len) K' mg_pars mg_through mg_belt.
Proof.
  pose proof F as F'. destruct F'.
  assert (Cases : forall w, inside (S len) w -> w = len \/ (w <> len /\ inside len w)).
  { intros w [H1 H2]. destruct (Nat.eq_dec w len) as [E|N]; [left; exact E|right; split; [exact N|split; [exact H1|lia]]]. }
  assert (Pl : inside (S len) len) by (split; [apply New, fg_len0|lia]).
  assert (Up : forall w, inside len w -> inside (S len) w) by (intros w [H1 H2]; split; [exact H1|lia]).
  assert (Ol : ~ old h0 P len) by (intros [_ H]; lia).
  assert (Par : forall w p, inside (S len) w -> In p (mg_pars w) -> inside (S len) p /\ p <> w).
  { intros w p Hw I. unfold mg_pars in I. destruct (w =? a)%nat eqn:E1.
    - apply Nat.eqb_eq in E1. subst w. apply in_app_or in I. destruct I as [I|[<-|[]]]; [|split; [exact Pl|exact Na]].
      destruct (fg_into _ _ _ _ _ _ a p F Ha) as (H1 & H2 & _); [rewrite Ea; apply in_or_app; left; exact I|]. split; [apply Up, H1|exact H2].
    - apply Nat.eqb_neq in E1. destruct (w =? len)%nat eqn:E2.
      + apply Nat.eqb_eq in E2. subst w. apply IP in I. destruct (fg_into _ _ _ _ _ _ a p F Ha I) as (H1 & _). split; [apply Up, H1|destruct H1; lia].
      + apply Nat.eqb_neq in E2. destruct (Cases w Hw) as [->|[_ H]]; [congruence|]. destruct (fg_into _ _ _ _ _ _ w p F H I) as (H1 & H2 & _). split; [apply Up, H1|exact H2]. }
  constructor.
  - lia.
  - intros w c Hw I. destruct (Cases w Hw) as [->|[_ H]]; [rewrite Ek in I; destruct I as [<-|[]]; apply Up, Ha|].
    destruct (kids_in w c H I) as [[-> _]|[_ J]]; [exact Pl|apply Up, (fg_kids0 w c H J)].
  - intros w p Hw I. apply (Par w p Hw I).
  - intros u v Hu Hv N. unfold mg_pars. destruct (Cases u Hu) as [->|[Nu H]].
    + rewrite Ek. cbn [count_occ]. destruct (v =? a)%nat eqn:E1.
      * apply Nat.eqb_eq in E1. subst v. destruct (Nat.eq_dec a a) as [_|X]; [|congruence]. rewrite cnt_app, (cnt_out len rest); [cbn; destruct (Nat.eq_dec len len); [reflexivity|congruence]|].
        intros I. assert (J : In len (Pa a)) by (rewrite Ea; apply in_or_app; left; exact I). apply (fg_pars0 a len Ha) in J. destruct J; lia.
      * apply Nat.eqb_neq in E1. destruct (Nat.eq_dec a v) as [X|_]; [congruence|]. destruct (v =? len)%nat eqn:E2; [apply Nat.eqb_eq in E2; congruence|].
        destruct (Cases v Hv) as [->|[_ H]]; [congruence|]. symmetry. apply cnt_out. intros J. apply (fg_pars0 v len H) in J. destruct J; lia.
    + destruct (v =? a)%nat eqn:E1.
      * apply Nat.eqb_eq in E1. subst v. rewrite cnt_app. cbn [count_occ]. destruct (Nat.eq_dec len u) as [X|_]; [congruence|]. pose proof (cnt_a u H) as C. rewrite (fg_links0 u a H Ha N), moved_eq in C. lia.
      * apply Nat.eqb_neq in E1. destruct (v =? len)%nat eqn:E2; [apply Nat.eqb_eq in E2; subst v; apply cnt_l, H|]. apply Nat.eqb_neq in E2. rewrite cnt_o by assumption.
        destruct (Cases v Hv) as [->|[_ H2]]; [congruence|]. apply fg_links0; assumption.
  - intros w Hw I. apply (Par w w Hw I). reflexivity.
  - intros w Ow I. pose proof (old_inside len w fg_len0 Ow) as Hw. destruct (kids_in w w Hw I) as [[-> _]|[_ J]]; [apply (Ol Ow)|apply (fg_own0 w Ow J)].
  - intros w Hw. destruct (Cases w Hw) as [->|[Nw H]].
    + unfold mg_through, mg_pars. rewrite Nat.eqb_refl, (proj2 (Nat.eqb_neq len a) Na), Ek. cbn [count_occ map qcsum fold_right]. destruct (Nat.eq_dec a len) as [X|_]; [congruence|]. change (Z.of_nat 0) with 0. rewrite foz_0.
      unfold input. destruct (in_dec _ _ _) as [I|_]; [destruct (Ol (Roots0 _ I))|]. unfold mg_belt, mg_sum. rewrite !Nat.eqb_refl. ring.
    + unfold mg_through. rewrite (proj2 (Nat.eqb_neq w len) Nw), (ks w H), (fg_bal0 w H). f_equal.
      2:{ unfold mg_belt. rewrite (proj2 (Nat.eqb_neq w len) Nw). reflexivity. } f_equal. unfold mg_pars. rewrite (proj2 (Nat.eqb_neq w len) Nw).
      assert (Same : forall l, (forall p, In p l -> p <> len) -> map (fun p => mg_belt p w) l = map (fun p => B p w) l).
      { intros l X. apply map_ext_in. intros p I. unfold mg_belt. rewrite (proj2 (Nat.eqb_neq w len) Nw), (proj2 (Nat.eqb_neq p len) (X p I)). reflexivity. }
      destruct (w =? a)%nat eqn:E1.
      * apply Nat.eqb_eq in E1. subst w. rewrite Ea, !map_app, !qcsum_app. rewrite Same.
        2:{ intros p I ->. assert (J : In len (Pa a)) by (rewrite Ea; apply in_or_app; left; exact I). apply (fg_pars0 a len Ha) in J. destruct J; lia. }
        cbn [map qcsum fold_right]. unfold mg_belt at 1. rewrite (proj2 (Nat.eqb_neq a len) Nw), Nat.eqb_refl. unfold mg_sum. ring.
      * rewrite Same; [reflexivity|]. intros p I ->. apply (fg_pars0 w len H) in I. destruct I; lia.
  - intros w Ow X. unfold mg_through. destruct (w =? len)%nat eqn:E; [apply Nat.eqb_eq in E; subst w; destruct (Ol Ow)|]. apply fg_val0; assumption.
  - intros w c W I. assert (Ow : old h0 P w) by apply W. pose proof (Kids0 w c Ow I) as Oc. unfold mg_belt. rewrite (proj2 (Nat.eqb_neq c len)), (proj2 (Nat.eqb_neq w len)); [apply fg_wait0; assumption| |]; intros ->; auto.
  - intros w Hw W N. destruct (Cases w Hw) as [->|[Nw H]].
    + apply on_equally; rewrite Ek; [cbn; lia|]. intros v [<-|[]]. unfold mg_belt, mg_through. rewrite !Nat.eqb_refl, (proj2 (Nat.eqb_neq a len)) by congruence. cbn [length]. change (Z.of_nat 1) with 1. rewrite qc_div_1. reflexivity.
    + apply splits'; [exact H|]. apply fg_splits0; [exact H|exact W|]. intros X. apply N. apply length_zero_iff_nil. rewrite (kids_len w H), X. reflexivity.
  - intros w Hw. destruct (Cases w Hw) as [->|[Nw H]].
    + rewrite Ek. split; [discriminate|]. intros [X _]. destruct (Ol X).
    + rewrite <- (fg_ends0 w H). pose proof (kids_len w H) as X. split; intros Y; apply length_zero_iff_nil; rewrite Y in X; cbn in X; congruence.
  - intros w Hw. unfold mg_through. destruct (Cases w Hw) as [->|[Nw H]].
    + rewrite Nat.eqb_refl. split; [apply sum_pos|]. intros c I. rewrite Ek in I. destruct I as [<-|[]]. unfold mg_belt. rewrite Nat.eqb_refl, (proj2 (Nat.eqb_neq a len)) by congruence. apply sum_pos.
    + rewrite (proj2 (Nat.eqb_neq w len) Nw). split; [apply (fg_pos0 w H)|]. intros c I. unfold mg_belt. rewrite (proj2 (Nat.eqb_neq w len) Nw). destruct (kids_in w c H I) as [[-> J]|[Nc J]].
      * rewrite Nat.eqb_refl. apply (fg_pos0 w H), J.
      * rewrite (proj2 (Nat.eqb_neq c len) Nc). apply (fg_pos0 w H), J.
  - intros w Hw. destruct (Cases w Hw) as [->|[Nw H]]; [|apply from, H]. destruct (moved_in x) as (_ & H & _ & _); [unfold moved; cbn [count_occ]; destruct (Nat.eq_dec x x); [lia|congruence]|].
    apply (reached_out _ _ x len (from x H)). apply cnt_in. rewrite cnt_l by exact H. unfold moved. cbn [count_occ]. destruct (Nat.eq_dec x x); [lia|congruence].
  - intros w Hw No. unfold mg_pars. destruct (Cases w Hw) as [->|[Nw H]].
    + rewrite (proj2 (Nat.eqb_neq len a) Na), Nat.eqb_refl, Ek. cbn [length count_occ]. destruct (Nat.eq_dec a len); [congruence|lia].
    + assert (Nwa : w <> a) by (intros ->; apply (No Oa)). rewrite (proj2 (Nat.eqb_neq w a) Nwa), (proj2 (Nat.eqb_neq w len) Nw), cnt_o by assumption. apply fg_fan0; assumption.
  - intros M H1 H2 w Hw. unfold mg_through. destruct (Cases w Hw) as [->|[Nw H]].
    + rewrite Nat.eqb_refl. eapply Qcle_trans; [apply sum_pos|]. apply (fg_limit0 M H1 H2 a Ha).
    + rewrite (proj2 (Nat.eqb_neq w len) Nw). apply (fg_limit0 M H1 H2 w H).
  - intros nodes todo N1 I1 N2 I2. destruct (perm_rest nodes [len; a] N1) as (R & PR & NR & IR).
    { constructor; [intros [X|[]]; congruence|repeat constructor; intros []]. }
    { intros w [<-|[<-|[]]]; apply I1; [exact Pl|apply Up, Ha]. }
    assert (Rest : forall w, In w R -> inside len w /\ w <> a /\ w <> len).
    { intros w I. apply IR in I. destruct I as [I J]. apply I1 in I. cbn in J. destruct (Cases w I) as [->|[Nw H]]; [tauto|]. split; [exact H|]. split; [intros ->; tauto|exact Nw]. }
    rewrite <- (fg_count0 (a :: R) todo); [| |intros w; split| |]; [| | | |exact N2|exact I2].
    + f_equal. rewrite (list_sum_perm _ _ (Permutation_map (at_node K' mg_pars) PR)). cbn [app map]. change (list_sum (?u :: ?l)) with (u + list_sum l)%nat.
      rewrite (map_ext_in (at_node K' mg_pars) (at_node K Pa) R).
      2:{ intros w I. destruct (Rest w I) as (Hw & N3 & N4). unfold at_node, fan_in, mg_pars. rewrite (kids_len w Hw), (ks w Hw), (proj2 (Nat.eqb_neq w a) N3), (proj2 (Nat.eqb_neq w len) N4). reflexivity. }
      unfold at_node at 1 2 4, fan_in, mg_pars. rewrite Nat.eqb_refl, (proj2 (Nat.eqb_neq len a) Na), Nat.eqb_refl, Ek, (kids_len a Ha), (ks a Ha), Ea, !app_length. cbn [length count_occ Nat.leb].
      destruct (Nat.eq_dec a len) as [X|_]; [congruence|]. unfold source at 1. destruct (in_dec Nat.eq_dec len roots) as [X|_]; [destruct (Ol (Roots0 _ X))|].
      replace (length rest + 3 + cnt a (K a) + source a)%nat with (length rest + 1 + cnt a (K a) + source a + 1 * 2)%nat by lia. rewrite Nat.div_add by lia. change ((3 + 0 + 0) / 2)%nat with 1%nat.
      change (list_sum (?u :: ?l)) with (u + list_sum l)%nat. lia.
    + constructor; [intros X; destruct (Rest a X) as (_ & Y & _); congruence|exact NR].
    + intros [<-|I]; [exact Ha|apply (Rest w I)].
    + intros Hw. destruct (Nat.eq_dec w a) as [->|N3]; [left; reflexivity|right]. apply IR. split; [apply I1, Up, Hw|]. intros [X|[X|[]]]; [destruct Hw; lia|congruence].
Qed.
End Merge.

Lemma reached_over K a w : reached K [a] w -> reached K roots a -> reached K roots w.
Proof. induction 1 as [r [<-|[]]|u v _ IH I]; intros R; [exact R|]. apply (reached_out _ _ u v (IH R) I). Qed.

(** ** An operation is replaced by splitters *)
Section Step.
Variables (Q : nat -> Prop) (len : nat) (K Pa : nat -> list nat) (T : nat -> Qc) (B : nat -> nat -> Qc).
Variables (a len' : nat) (K' Pa' : nat -> list nat) (t : nat -> Qc) (b : nat -> nat -> Qc).
Let isnew (w : nat) : Prop := (len <= w < len')%nat.
Let mid (w : nat) : Prop := w = a \/ isnew w.
Let cs := kids h0 a.
Definition st_mid (w : nat) : bool := (w =? a)%nat || (len <=? w)%nat.
Definition st_through (w : nat) : Qc := if st_mid w then t w else T w.
Definition st_belt (p w : nat) : Qc := if st_mid p then b p w else B p w.
Hypothesis F : fg Q len K Pa T B.
Hypothesis Len : (len <= len')%nat.
Hypothesis Wa : waiting h0 P Q a.
Hypothesis Ka : K a = cs.
Hypothesis NE : cs <> [].
Hypothesis KO : forall w, inside len w -> w <> a -> K' w = K w.
Hypothesis PO : forall w, inside len w -> w <> a -> ~ In w cs -> Pa' w = Pa w.
Hypothesis KI : forall w v, mid w -> In v (K' w) -> mid v \/ In v cs.
Hypothesis PN : forall w p, isnew w -> In p (Pa' w) -> mid p /\ p <> w.
Hypothesis LK : forall w v, mid w -> mid v \/ In v cs -> w <> v -> cnt v (K' w) = cnt w (Pa' v).
Hypothesis OW : ~ In a (K' a).
Hypothesis BN : forall w, isnew w -> t w = (qcsum (map (fun p => b p w) (Pa' w)) + frac_of_Z (Z.of_nat (cnt w (K' w))) * b w w)%Qc.
Hypothesis BA : exists ns, Permutation (Pa' a) (Pa a ++ ns) /\ (forall p, In p ns -> isnew p) /\ t a = (val a + qcsum (map (fun p => b p a) ns))%Qc.
Hypothesis BC : forall w, In w cs -> exists R ns, Permutation (Pa w) (repeat a (cnt w cs) ++ R) /\ ~ In a R /\ Permutation (Pa' w) (R ++ ns) /\ (forall p, In p ns -> mid p) /\
  qcsum (map (fun p => b p w) ns) = (frac_of_Z (Z.of_nat (cnt w cs)) * val w)%Qc.
Hypothesis HO : forall w, mid w -> hands_on K' st_through st_belt w.
Hypothesis PS : forall w, mid w -> (Q2Qc 0 < t w)%Qc /\ forall c, In c (K' w) -> (Q2Qc 0 < b w c)%Qc.
Hypothesis RE : forall w, mid w -> reached K' [a] w.
Hypothesis RC : forall c, In c cs -> exists w, mid w /\ In c (K' w).
Hypothesis FA : forall w, isnew w -> (length (Pa' w) + cnt w (K' w) <= 3)%nat.
Hypothesis LI : forall M, (frac_of_Z 1200 <= M)%Qc -> (forall x, old h0 P x -> (val x <= M)%Qc) -> forall w, mid w -> (t w <= M)%Qc.

Hypothesis NC : NoDup cs.
Hypothesis CT : list_sum (map (at_node K' Pa') (a :: cs ++ seq len (len' - len))) = (list_sum (map (at_node K Pa) (a :: cs)) + pend a)%nat.

Let Oa : old h0 P a.
Proof. apply Wa. Qed.
Let Ha : inside len a.
Proof. apply old_inside; [apply (fg_len _ _ _ _ _ _ F)|exact Oa]. Qed.
Let csO w : In w cs -> old h0 P w /\ inside len w /\ w <> a.
Proof.
  intros I. pose proof (Kids0 a w Oa I) as O. split; [exact O|]. split; [apply old_inside; [apply (fg_len _ _ _ _ _ _ F)|exact O]|]. intros ->. apply (fg_own _ _ _ _ _ _ F a Oa). rewrite Ka. exact I.
Qed.
Let mid_true w : mid w -> st_mid w = true.
Proof. intros [->|[H _]]; unfold st_mid; [rewrite Nat.eqb_refl; reflexivity|]. rewrite (proj2 (Nat.leb_le len w) H). apply orb_true_r. Qed.
Let mid_false w : inside len w -> w <> a -> st_mid w = false.
Proof. intros [_ H] N. unfold st_mid. rewrite (proj2 (Nat.eqb_neq w a) N), (proj2 (Nat.leb_gt len w) H). reflexivity. Qed.
Let Cases w : inside len' w -> mid w \/ (inside len w /\ w <> a /\ ~ mid w).
Proof.
  intros [H1 H2]. destruct (Nat.eq_dec w a) as [E|N]; [left; left; exact E|]. destruct (le_lt_dec len w) as [L|L]; [left; right; split; assumption|right].
  repeat split; try assumption. intros [X|[X _]]; [congruence|lia].
Qed.
Let mid_in w : mid w -> inside len' w.
Proof. intros [->|[H1 H2]]; [destruct Ha; split; [assumption|lia]|]. split; [apply New; pose proof (fg_len _ _ _ _ _ _ F); lia|exact H2]. Qed.
Let up w : inside len w -> inside len' w.
Proof. intros [H1 H2]. split; [exact H1|lia]. Qed.
Let Parents w p : inside len' w -> In p (Pa' w) -> inside len' p /\ p <> w.
Proof.
  intros Hw I. destruct (Cases w Hw) as [[->|N]|(H & Na & Nm)].
  - destruct BA as (ns & E & Hn & _). apply (perm_in _ _ _ E) in I. apply in_app_or in I. destruct I as [I|I].
    + destruct (fg_into _ _ _ _ _ _ a p F Ha I) as (X1 & X2 & _). split; [apply up, X1|exact X2].
    + apply Hn in I. split; [apply mid_in; right; exact I|]. destruct I, Ha. lia.
  - destruct (PN w p N I) as [X1 X2]. split; [apply mid_in, X1|exact X2].
  - destruct (in_dec Nat.eq_dec w cs) as [J|J].
    + destruct (BC w J) as (R & ns & E1 & HR & E2 & Hn & _). apply (perm_in _ _ _ E2) in I. apply in_app_or in I. destruct I as [I|I].
      * assert (I' : In p (Pa w)) by (apply (perm_in _ _ _ (Permutation_sym E1)), in_or_app; right; exact I). destruct (fg_into _ _ _ _ _ _ w p F H I') as (X1 & X2 & _). split; [apply up, X1|exact X2].
      * apply Hn in I. split; [apply mid_in, I|]. intros ->. apply (Nm I).
    + rewrite PO in I by assumption. destruct (fg_into _ _ _ _ _ _ w p F H I) as (X1 & X2 & _). split; [apply up, X1|exact X2].
Qed.
Let isnew_not w : inside len w -> isnew w -> False.
Proof. intros [_ H] [X _]. lia. Qed.

Lemma fg_step : fg (fun x => Q x /\ x <> a) len' K' Pa' st_through st_belt.
Proof.
  pose proof F as F'. destruct F'.
  assert (Ta : T a = val a) by (apply fg_val0; [exact Oa|right; apply Wa]).
  assert (Bo : forall w p l, (forall q, In q l -> inside len q /\ q <> a) -> p = w -> map (fun q => st_belt q p) l = map (fun q => B q w) l).
  { intros w p l X ->. apply map_ext_in. intros q I. destruct (X q I). unfold st_belt. rewrite mid_false by assumption. reflexivity. }
  assert (Bm : forall w l, (forall q, In q l -> mid q) -> map (fun q => st_belt q w) l = map (fun q => b q w) l).
  { intros w l X. apply map_ext_in. intros q I. unfold st_belt. rewrite mid_true by (apply X, I). reflexivity. }
  constructor.
  - lia.
  - intros w c Hw I. destruct (Cases w Hw) as [M|(H & Na & _)].
    + destruct (KI w c M I) as [X|X]; [apply mid_in, X|apply up, (csO c X)].
    + rewrite KO in I by assumption. apply up, (fg_kids0 w c H I).
  - intros w p Hw I. apply (Parents w p Hw I).
  - intros u v Hu Hv N. destruct (Cases u Hu) as [Mu|(H & Na & Nm)].
    + destruct (Cases v Hv) as [Mv|(H2 & Na2 & Nm2)]; [apply LK; [exact Mu|left; exact Mv|exact N]|]. destruct (in_dec Nat.eq_dec v cs) as [J|J]; [apply LK; [exact Mu|right; exact J|exact N]|].
      rewrite PO by assumption. rewrite cnt_out by (intros I; destruct (KI u v Mu I) as [X|X]; [apply (Nm2 X)|apply (J X)]). symmetry. destruct Mu as [->|Nu].
      * rewrite <- fg_links0 by assumption. rewrite Ka. apply cnt_out, J.
      * apply cnt_out. intros I. apply (isnew_not u); [apply (fg_pars0 v u H2 I)|exact Nu].
    + rewrite KO by assumption. destruct (Cases v Hv) as [[->|Nv]|(H2 & Na2 & Nm2)].
      * destruct BA as (ns & E & Hn & _). rewrite (cnt_perm u _ _ E), cnt_app, (cnt_out u ns); [rewrite Nat.add_0_r; apply fg_links0; assumption|]. intros I. apply (Nm (or_intror (Hn u I))).
      * rewrite !cnt_out; [reflexivity| |]; [intros I; apply (Nm (proj1 (PN v u Nv I)))|intros I; apply (isnew_not v); [apply (fg_kids0 u v H I)|exact Nv]].
      * destruct (in_dec Nat.eq_dec v cs) as [J|J]; [|rewrite PO by assumption; apply fg_links0; assumption].
        destruct (BC v J) as (R & ns & E1 & HR & E2 & Hn & _). rewrite (fg_links0 u v) by assumption. rewrite (cnt_perm u _ _ E1), (cnt_perm u _ _ E2), !cnt_app, cnt_repeat_other by exact Na.
        rewrite (cnt_out u ns) by (intros I; apply (Nm (Hn u I))). lia.
  - intros w Hw I. apply (Parents w w Hw I). reflexivity.
  - intros w Ow I. destruct (Nat.eq_dec w a) as [->|N]; [apply (OW I)|]. rewrite KO in I; [apply (fg_own0 w Ow I)|apply old_inside; assumption|exact N].
  - intros w Hw. unfold st_through. destruct (Cases w Hw) as [[->|Nw]|(H & Na & Nm)].
    + rewrite mid_true by (left; reflexivity). destruct BA as (ns & E & Hn & ->). rewrite (cnt_out a (K' a) OW). change (Z.of_nat 0) with 0. rewrite foz_0.
      rewrite (qcsum_perm _ _ (Permutation_map (fun p => st_belt p a) E)), map_app, qcsum_app, (Bm a ns) by (intros q I; right; apply Hn, I).
      rewrite (Bo a a) by (try reflexivity; intros q I; destruct (fg_into _ _ _ _ _ _ a q F Ha I) as (X1 & X2 & _); split; assumption).
      rewrite <- Ta, (fg_bal0 a Ha). rewrite (cnt_out a (K a)) by (apply fg_own0, Oa). change (Z.of_nat 0) with 0. rewrite foz_0. ring.
    + rewrite mid_true by (right; exact Nw). rewrite (Bm w) by (intros q I; apply (PN w q Nw I)). unfold st_belt. rewrite mid_true by (right; exact Nw). rewrite (BN w Nw) at 1.
      unfold input. destruct (in_dec _ _ _) as [I|_]; [|ring]. apply Roots0 in I. destruct Nw, I; lia.
    + rewrite mid_false by assumption. unfold st_belt at 2. rewrite mid_false by assumption. rewrite KO by assumption. rewrite (fg_bal0 w H). f_equal. f_equal. destruct (in_dec Nat.eq_dec w cs) as [J|J].
      * destruct (BC w J) as (R & ns & E1 & HR & E2 & Hn & E3). rewrite (qcsum_perm _ _ (Permutation_map (fun p => B p w) E1)), (qcsum_perm _ _ (Permutation_map (fun p => st_belt p w) E2)).
        rewrite !map_app, !qcsum_app, (Bm w ns Hn), E3. rewrite (Bo w w R); [|intros q I|reflexivity].
        2:{ assert (I' : In q (Pa w)) by (apply (perm_in _ _ _ (Permutation_sym E1)), in_or_app; right; exact I). split; [apply (fg_pars0 w q H I')|intros ->; apply (HR I)]. }
        replace (qcsum (map (fun p => B p w) (repeat a (cnt w cs)))) with (frac_of_Z (Z.of_nat (cnt w cs)) * val w)%Qc; [ring|].
        rewrite <- (fg_wait0 a w Wa J). symmetry. apply (qcsum_repeat (fun p => B p w)).
      * rewrite PO by assumption. rewrite (Bo w w); [reflexivity| |reflexivity]. intros q I. split; [apply (fg_pars0 w q H I)|]. intros ->. apply J. rewrite <- Ka. apply (fg_into _ _ _ _ _ _ w a F H I).
  - intros w Ow X. assert (N : w <> a) by (intros ->; destruct X as [X|[_ X]]; [apply X, Wa|congruence]). unfold st_through. rewrite mid_false by (try apply old_inside; assumption). apply fg_val0; [exact Ow|]. destruct X as [X|[X _]]; [left|right]; exact X.
  - intros w c W I. assert (N : w <> a) by (intros ->; apply W; reflexivity). assert (Ow : old h0 P w) by apply W. unfold st_belt. rewrite mid_false by (try apply old_inside; assumption).
    apply fg_wait0; [|exact I]. destruct W as (W1 & W2 & W3). split; [exact W1|]. split; [exact W2|apply W3].
  - intros w Hw W N. destruct (Cases w Hw) as [M|(H & Na & Nm)]; [apply HO, M|]. rewrite KO in N by assumption.
    assert (Tw : forall v, inside len v -> v <> a -> st_through v = T v) by (intros v X1 X2; unfold st_through; rewrite mid_false by assumption; reflexivity).
    assert (Bw : forall v, st_belt w v = B w v) by (intros v; unfold st_belt; rewrite mid_false by assumption; reflexivity).
    destruct (fg_splits0 w H) as [L S|u v s H1 H2 H3 H4 H5|u v s H1 H2 H3 H4 H5 H6]; [|exact N| | |].
    + intros (W1 & W2 & W3). apply W. split; [exact W1|]. split; [exact W2|split; [exact W3|exact Na]].
    + apply on_equally; rewrite KO by assumption; [exact L|]. intros v I. rewrite Bw, Tw by assumption. apply S, I.
    + apply (on_overflowing _ _ _ _ u v s); rewrite ?KO, ?Bw, ?Tw by assumption; assumption.
    + assert (Hu : inside len u) by (apply (fg_kids0 w u H); apply (perm_in _ _ _ (Permutation_sym H1)); left; reflexivity). assert (Nu : u <> a) by (intros ->; apply (fg_own0 a Oa H3)).
      apply (on_backing_up _ _ _ _ u v s); rewrite ?(KO w), ?(KO u), ?Bw, ?(Tw w), ?(Tw u) by assumption; assumption.
  - intros w Hw. destruct (Cases w Hw) as [M|(H & Na & Nm)]; [|rewrite KO by assumption; apply fg_ends0, H]. split.
    + intros X. exfalso. destruct (HO w M) as [L _|u v s H1 _ _ _ _|u v s H1 _ _ _ _ _]; rewrite X in *; [cbn in L; lia|apply Permutation_nil in H1; discriminate|apply Permutation_nil in H1; discriminate].
    + intros [Ow X]. exfalso. destruct M as [->|M]; [|apply (isnew_not w); [apply old_inside; assumption|exact M]].
      apply (NE X).
  - intros w Hw. unfold st_through. destruct (Cases w Hw) as [M|(H & Na & Nm)].
    + rewrite mid_true by exact M. split; [apply PS, M|]. intros c I. unfold st_belt. rewrite mid_true by exact M. apply PS; assumption.
    + rewrite mid_false, KO by assumption. split; [apply fg_pos0, H|]. intros c I. unfold st_belt. rewrite mid_false by assumption. apply fg_pos0; assumption.
  - assert (R1 : forall w, inside len w -> reached K' roots w).
    { intros w Hw. assert (X : inside len w /\ reached K' roots w); [|apply X]. pose proof (fg_reach0 w Hw) as R. clear Hw. induction R as [r I|u v _ [Hu IH] I].
      - split; [apply old_inside; [assumption|apply Roots0, I]|apply reached_root, I].
      - split; [apply (fg_kids0 u v Hu I)|]. destruct (Nat.eq_dec u a) as [->|N]; [|apply (reached_out _ _ u v IH); rewrite KO by assumption; exact I].
        rewrite Ka in I. destruct (RC v I) as (w & M & J). apply (reached_out _ _ w v); [|exact J]. apply (reached_over _ a); [apply RE, M|exact IH]. }
    intros w Hw. destruct (Cases w Hw) as [M|(H & _)]; [|apply R1, H]. apply (reached_over _ a); [apply RE, M|apply R1, Ha].
  - intros w Hw No. destruct (Cases w Hw) as [[->|M]|(H & Na & Nm)]; [destruct (No Oa)|apply FA, M|].
    rewrite KO, PO; [apply fg_fan0; assumption|assumption|assumption|intros J; apply No, (csO w J)|assumption|assumption].
  - intros M H1 H2 w Hw. unfold st_through. destruct (Cases w Hw) as [Mw|(H & Na & Nm)]; [rewrite mid_true by exact Mw; apply (LI M H1 H2 w Mw)|]. rewrite mid_false by assumption. apply (fg_limit0 M H1 H2 w H).
  - intros nodes todo N1 I1 N2 I2. destruct (perm_rest nodes (a :: cs ++ seq len (len' - len)) N1) as (R & PR & NR & IR).
    { constructor.
      - intros I. apply in_app_or in I. destruct I as [I|I]; [apply (csO a I); reflexivity|apply in_seq in I; destruct Ha; lia].
      - apply nodup_join; [exact NC|apply seq_NoDup|]. intros x I J. apply in_seq in J. destruct (csO x I) as (_ & [_ H] & _). lia. }
    { intros w [<-|I]; [apply I1, mid_in; left; reflexivity|]. apply in_app_or in I. destruct I as [I|I]; [apply I1, up, (csO w I)|]. apply in_seq in I. apply I1, mid_in. right. split; lia. }
    assert (Rest : forall w, In w R -> inside len w /\ w <> a /\ ~ In w cs).
    { intros w I. apply IR in I. destruct I as [I J]. apply I1 in I. destruct (Cases w I) as [[->|M]|(H & Na & _)]; [exfalso; apply J; left; reflexivity| |].
      - exfalso. apply J. right. apply in_or_app. right. apply in_seq. destruct M. lia.
      - split; [exact H|]. split; [exact Na|]. intros X. apply J. right. apply in_or_app. left. exact X. }
    rewrite <- (fg_count0 ((a :: cs) ++ R) (a :: todo)).
    + rewrite (list_sum_perm _ _ (Permutation_map (at_node K' Pa') PR)), !map_app, !list_sum_app, CT. rewrite (map_ext_in (at_node K' Pa') (at_node K Pa) R).
      2:{ intros w I. destruct (Rest w I) as (Hw & N3 & N4). unfold at_node, fan_in. rewrite KO, PO by assumption. reflexivity. }
      cbn [map]. change (list_sum (pend a :: map pend todo)) with (pend a + list_sum (map pend todo))%nat. lia.
    + apply nodup_join; [constructor; [intros I; apply (csO a I); reflexivity|exact NC]|exact NR|]. intros x I J. destruct (Rest x J) as (_ & X & Y). destruct I as [<-|I]; [congruence|contradiction].
    + intros w. split.
      * intros I. apply in_app_or in I. destruct I as [[<-|I]|I]; [exact Ha|apply (csO w I)|apply (Rest w I)].
      * intros Hw. apply in_or_app. destruct (Nat.eq_dec w a) as [->|N3]; [left; left; reflexivity|]. destruct (in_dec Nat.eq_dec w cs) as [J|J]; [left; right; exact J|right]. apply IR. split; [apply I1, up, Hw|].
        intros [X|X]; [congruence|]. apply in_app_or in X. destruct X as [X|X]; [contradiction|]. apply in_seq in X. destruct Hw. lia.
    + constructor; [|exact N2]. intros I. apply I2 in I. apply I. reflexivity.
    + intros w. split.
      * intros [<-|I]; [exact Wa|]. apply I2 in I. destruct I as (W1 & W2 & W3). split; [exact W1|]. split; [exact W2|apply W3].
      * intros W. destruct (Nat.eq_dec w a) as [->|N3]; [left; reflexivity|right]. apply I2. destruct W as (W1 & W2 & W3). split; [exact W1|]. split; [exact W2|]. split; assumption.
Qed.
End Step.
End Flow.
