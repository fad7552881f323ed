(** Expanding a divide, extract or split only touches its node, the children of
    that node and new nodes, and does not fail on a node that is not overloaded. *)
From Verif Require Import Base BaseLemmas Cost CostSpec CostProofs Utils Fractions FractionsProofs Load Tree TreeSpec HeapLemmas Expand ExpandSpec BranchProofs LevelProofs BuildProofs ExpandProofs ExtractProofs FrameProofs.
From Coq Require Import QArith Qcanon.
Open Scope Z_scope.

Definition merge_tag (t : tag) : Prop := exists k, t = TMerge k /\ 2 <= k.

Lemma upd_past {A} (f : A -> A) : forall l a, (length l <= a)%nat -> upd a f l = l.
Proof. induction l as [|x l IH]; intros a B; [destruct a; reflexivity|]. destruct a as [|a]; cbn in *; [lia|]. rewrite IH by lia. reflexivity. Qed.

Section Local.
Variables (h : heap Qc) (a : nat) (cs : list nat).
Hypothesis Ha : (a < length h)%nat.

(** [a] and the new nodes *)
Definition inner (g : heap Qc) (y : nat) : Prop := y = a \/ (length h <= y < length g)%nat.
Definition area (g : heap Qc) (y : nat) : Prop := inner g y \/ In y cs.

Record loc (g : heap Qc) : Prop := {
  lo_len : (length h <= length g)%nat;
  lo_old : forall y, (y < length h)%nat -> n_value (get g y) = n_value (get h y) /\ n_level (get g y) = n_level (get h y);
  lo_tags : forall y, (y < length h)%nat -> exists extra, n_expands (get g y) = n_expands (get h y) ++ extra /\ Forall merge_tag extra;
  lo_far : forall y, (y < length h)%nat -> y <> a -> ~ In y cs -> n_expands (get g y) = n_expands (get h y);
  lo_kids : forall y, (y < length h)%nat -> y <> a -> kids g y = kids h y;
  lo_pars : forall y, (y < length h)%nat -> y <> a -> ~ In y cs -> pars g y = pars h y;
  lo_kids_in : forall y c, inner g y -> In c (kids g y) -> area g c;
  lo_pars_in : forall y p, area g y -> In p (pars g y) -> inner g p \/ (y = a /\ In p (pars h a));
  lo_new : forall y, (length h <= y < length g)%nat -> (exists l, n_level (get g y) = Some l) /\ (Q2Qc 0 <= n_value (get g y))%Qc /\ n_expands (get g y) = []
}.

Lemma inner_le g g' y : (length g <= length g')%nat -> inner g y -> inner g' y.
Proof. intros L [I|I]; [left; exact I|right; lia]. Qed.
Lemma loc_start : kids h a = cs -> (forall c, In c cs -> (c < length h)%nat /\ pars h c = [a]) -> loc h.
Proof.
  clear Ha. intros K P. constructor; try (intros; auto; fail).
  - intros y B. exists []. rewrite app_nil_r. split; [reflexivity|constructor].
  - intros y c [->|I] J; [|lia]. right. rewrite <- K. exact J.
  - intros y p [[->|I]|I] J; [right; auto|lia|]. destruct (P y I) as (_ & E). rewrite E in J. destruct J as [<-|[]]. left. left. reflexivity.
  - intros y B. lia.
Qed.
Lemma loc_upd g y f : loc g -> area g y ->
  n_value (f (get g y)) = n_value (get g y) -> n_level (f (get g y)) = n_level (get g y) ->
  (exists extra, n_expands (f (get g y)) = n_expands (get g y) ++ extra /\ Forall merge_tag extra /\ ((length h <= y)%nat -> extra = [])) ->
  ((y < length h)%nat -> y <> a -> kids g y = n_children (f (get g y))) ->
  (forall c, inner g y -> In c (n_children (f (get g y))) -> area g c) ->
  (forall p, In p (n_parents (f (get g y))) -> inner g p \/ (y = a /\ In p (pars h a))) ->
  loc (upd y f g).
Proof.
  intros L A V Le (ex & X & FX & NX) K KI PI. destruct (Nat.lt_ge_cases y (length g)) as [By|By]; [|rewrite upd_past by exact By; exact L].
  pose proof (lo_len _ L) as LL.
  assert (G : forall z, get (upd y f g) z = if (y =? z)%nat then f (get g z) else get g z).
  { intros z. destruct (Nat.eqb_spec y z) as [<-|N]; [apply get_upd_same, By|apply get_upd_other, N]. }
  assert (IN : forall z, inner (upd y f g) z <-> inner g z) by (intros z; unfold inner; rewrite upd_length; reflexivity).
  assert (AR : forall z, area (upd y f g) z <-> area g z) by (intros z; unfold area; rewrite IN; reflexivity).
  constructor.
  - rewrite upd_length. exact LL.
  - intros z Bz. rewrite G. destruct (Nat.eqb_spec y z) as [<-|N]; [rewrite V, Le|]; apply (lo_old _ L), Bz.
  - intros z Bz. rewrite G. destruct (lo_tags _ L z Bz) as (e & E & F). destruct (Nat.eqb_spec y z) as [<-|N]; [|exists e; auto].
    exists (e ++ ex). rewrite X, E, app_assoc. split; [reflexivity|apply Forall_app; auto].
  - intros z Bz Na Nc. rewrite G. destruct (Nat.eqb_spec y z) as [<-|N]; [|apply (lo_far _ L); assumption]. exfalso. destruct A as [[A|A]|A]; [contradiction|lia|contradiction].
  - intros z Bz Na. rewrite G. destruct (Nat.eqb_spec y z) as [<-|N]; [rewrite <- K by assumption|]; apply (lo_kids _ L); assumption.
  - intros z Bz Na Nc. rewrite G. destruct (Nat.eqb_spec y z) as [<-|N]; [|apply (lo_pars _ L); assumption]. exfalso. destruct A as [[A|A]|A]; [contradiction|lia|contradiction].
  - intros z c Iz J. rewrite G in J. apply AR. apply IN in Iz. destruct (Nat.eqb_spec y z) as [<-|N]; [apply KI; assumption|apply (lo_kids_in _ L z); assumption].
  - intros z p Az J. rewrite G in J. apply AR in Az. rewrite IN. destruct (Nat.eqb_spec y z) as [<-|N]; [apply PI; assumption|apply (lo_pars_in _ L z); assumption].
  - intros z Bz. rewrite upd_length in Bz. rewrite G. destruct (lo_new _ L z Bz) as (X1 & X2 & X3). destruct (Nat.eqb_spec y z) as [<-|N]; [rewrite V, Le, X, X3, NX by lia; auto|auto].
Qed.
Lemma no_more (t : list tag) (P : Prop) : exists extra, t = t ++ extra /\ Forall merge_tag extra /\ (P -> extra = []).
Proof. exists []. rewrite app_nil_r. split; [reflexivity|]. split; [constructor|auto]. Qed.

Lemma loc_add_child g y c : loc g -> inner g y -> area g c -> loc (upd y (add_child c) g).
Proof.
  intros L I A. apply loc_upd; [exact L|left; exact I|reflexivity|reflexivity|apply no_more| | |].
  - intros B N. exfalso. destruct I as [I|I]; [contradiction|lia].
  - intros x _ J. cbn in J. apply in_app_iff in J. destruct J as [J|[<-|[]]]; [apply (lo_kids_in _ L y); assumption|exact A].
  - intros p J. apply (lo_pars_in _ L y); [left; exact I|exact J].
Qed.
Lemma loc_set_children g y l : loc g -> inner g y -> (forall c, In c l -> area g c) -> loc (upd y (set_children l) g).
Proof.
  intros L I A. apply loc_upd; [exact L|left; exact I|reflexivity|reflexivity|apply no_more| | |].
  - intros B N. exfalso. destruct I as [I|I]; [contradiction|lia].
  - intros x _ J. apply A, J.
  - intros p J. apply (lo_pars_in _ L y); [left; exact I|exact J].
Qed.
Lemma loc_add_parent g y p : loc g -> area g y -> inner g p -> loc (upd y (add_parent p) g).
Proof.
  intros L I A. apply loc_upd; [exact L|exact I|reflexivity|reflexivity|apply no_more|reflexivity| |].
  - intros x I' J. apply (lo_kids_in _ L y); assumption.
  - intros x J. cbn in J. apply in_app_iff in J. destruct J as [J|[<-|[]]]; [apply (lo_pars_in _ L y); assumption|left; exact A].
Qed.
Lemma loc_set_parents g y l : loc g -> area g y -> (forall p, In p l -> inner g p) -> loc (upd y (set_parents l) g).
Proof.
  intros L I A. apply loc_upd; [exact L|exact I|reflexivity|reflexivity|apply no_more|reflexivity| |].
  - intros x I' J. apply (lo_kids_in _ L y); assumption.
  - intros x J. left. apply A, J.
Qed.
Lemma loc_tag_merge k g y : loc g -> 2 <= k -> y = a \/ (In y cs /\ (y < length h)%nat) -> loc (tag_merge k g y).
Proof.
  intros L Hk I. unfold tag_merge. destruct (_ <? _); [|exact L]. assert (A : area g y) by (destruct I as [I|I]; [left; left; exact I|right; apply I]).
  apply loc_upd; [exact L|exact A|reflexivity|reflexivity| |reflexivity| |].
  - exists [TMerge k]. split; [reflexivity|]. split; [repeat constructor; exists k; auto|]. intros B. exfalso. destruct I as [->|[_ I]]; lia.
  - intros x I' J. apply (lo_kids_in _ L y); assumption.
  - intros x J. apply (lo_pars_in _ L y); assumption.
Qed.
Lemma loc_new g v l k g' x : loc g -> new_node g v (Some l) k = Ok (g', x) -> loc g' /\ inner g' x /\ length g' = S (length g) /\ x = length g.
Proof.
  unfold new_node. destruct (negative v) eqn:Nv; [discriminate|]. intros L [= <- <-]. pose proof (lo_len _ L) as LL. split; [|unfold inner; rewrite app_length; cbn [length]; split; [right; lia|split; [lia|reflexivity]]].
  set (nd := MkNode v _ _ _ _ _ _ _).
  assert (G : forall z, (z < length g)%nat -> get (g ++ [nd]) z = get g z) by (intros z B; apply get_app_l, B).
  assert (GN : get (g ++ [nd]) (length g) = nd) by apply get_app_new.
  assert (IN : forall z, inner g z -> inner (g ++ [nd]) z) by (intros z; apply inner_le; rewrite app_length; lia).
  assert (AR : forall z, area g z -> area (g ++ [nd]) z) by (intros z [I|I]; [left; apply IN, I|right; exact I]).
  assert (BE : forall z, inner (g ++ [nd]) z -> inner g z \/ z = length g) by (intros z [I|I]; [left; left; exact I|rewrite app_length in I; cbn in I; destruct (Nat.eq_dec z (length g)); [right; assumption|left; right; lia]]).
  assert (BI : forall z, inner g z -> (z < length g)%nat) by (intros z [->|I]; lia).
  constructor.
  - rewrite app_length. lia.
  - intros y B. rewrite G by lia. apply (lo_old _ L), B.
  - intros y B. rewrite G by lia. apply (lo_tags _ L), B.
  - intros y B. rewrite G by lia. apply (lo_far _ L), B.
  - intros y B. rewrite G by lia. apply (lo_kids _ L), B.
  - intros y B. rewrite G by lia. apply (lo_pars _ L), B.
  - intros y c I J. apply BE in I. destruct I as [I| ->]; [|rewrite GN in J; destruct J]. rewrite G in J by (apply BI, I). apply AR, (lo_kids_in _ L y); assumption.
  - intros y p I J. assert (X : area g y \/ y = length g) by (destruct I as [I|I]; [apply BE in I; destruct I; [left; left; assumption|auto]|left; right; exact I]).
    destruct X as [X| ->]; [|rewrite GN in J; destruct J].
    destruct (Nat.lt_ge_cases y (length g)) as [B|B].
    + rewrite G in J by exact B. destruct (lo_pars_in _ L y p X J) as [K|K]; [left; apply IN, K|right; exact K].
    + rewrite get_app_r in J by exact B. destruct (y - length g)%nat as [|q]; [destruct J|]. unfold get in J. rewrite nth_overflow in J by (cbn; lia). destruct J.
  - intros y B. rewrite app_length in B. cbn in B. destruct (Nat.eq_dec y (length g)) as [->|N]; [|rewrite G by lia; apply (lo_new _ L); lia].
    rewrite GN. cbn. split; [eauto|]. split; [apply negative_false, Nv|reflexivity].
Qed.

Definition locs (st : heap Qc * list nat) : Prop := loc (fst st) /\ forall x, In x (snd st) -> inner (fst st) x.
Lemma loc_grow r off cur v lvl lta count g st : loc g -> (forall x, In x cur -> inner g x) -> grow r off cur v lvl lta count g = Ok st ->
  loc (fst st) /\ (length g <= length (fst st))%nat.
Proof.
  intros L C. unfold grow. apply (fold_res_ind _ (fun st => loc (fst st) /\ (length g <= length (fst st))%nat)); [|split; [exact L|reflexivity]]. intros [g1 new] j st' [L1 LE] E. cbn [fst snd] in *. unfold grow_step in E.
  destruct (new_node g1 v (Some lvl) lta) as [[g2 x]|] eqn:E1; [|discriminate]. cbn [bind] in E. destruct (at_index cur ((off + j) / r)) as [p|] eqn:E2; [|discriminate]. cbn [bind] in E. injection E as <-.
  destruct (loc_new _ _ _ _ _ _ L1 E1) as (L2 & I2 & LL & _). assert (Ip : inner g2 p) by (apply (inner_le g); [lia|apply C, (at_index_in _ _ _ E2)]).
  cbn [fst]. rewrite !upd_length. split; [|lia].
  assert (L3 : loc (upd p (add_child x) g2)) by (apply loc_add_child; [exact L2|exact Ip|left; exact I2]).
  apply loc_set_parents; [exact L3| |]; intros; [left|]; unfold inner in *; rewrite upd_length; [assumption|].
  destruct H as [<-|[]]. exact Ip.
Qed.
Lemma loc_relink r off cur orig g g' : loc g -> (forall x, In x cur -> inner g x) -> incl orig cs -> relink r off cur orig g = Ok g' -> loc g' /\ length g' = length g.
Proof.
  intros L C O. unfold relink. assert (F : Forall (fun jc : Z * nat => In (snd jc) cs) (combine (zrange 0 (Z.of_nat (length orig))) orig)).
  { apply Forall_forall. intros [j c] I. apply in_combine_r in I. apply O, I. }
  revert g L C. induction F as [|[j c] l Pc F IH]; intros g L C E; [injection E as <-; auto|]. cbn in E. unfold relink_step in E. cbn [fst snd] in *. destruct (at_index cur ((off + j) / r)) as [p|] eqn:E2; [|discriminate]. cbn [bind] in E.
  assert (Ip : inner g p) by (apply C, (at_index_in _ _ _ E2)).
  apply IH in E; [rewrite !upd_length in E; exact E| |].
  - apply loc_set_parents; [apply loc_add_child; [exact L|exact Ip|right; exact Pc]|right; exact Pc|]. intros q [<-|[]]. unfold inner in *. rewrite upd_length. exact Ip.
  - intros x I. unfold inner. rewrite !upd_length. apply C, I.
Qed.
Lemma loc_reroute r off cur target count g g' : loc g -> (forall x, In x cur -> inner g x) -> area g target -> reroute r off cur target count g = Ok g' -> loc g' /\ length g' = length g.
Proof.
  intros L C T. unfold reroute. apply (fold_res_ind _ (fun g' => loc g' /\ length g' = length g)); [|auto]. intros g1 j g2 [L1 LE] E. unfold reroute_step in E. destruct (at_index cur ((off + j) / r)) as [p|] eqn:E2; [|discriminate]. cbn [bind] in E. injection E as <-.
  assert (Ip : inner g1 p) by (apply (inner_le g); [lia|apply C, (at_index_in _ _ _ E2)]). assert (T1 : area g1 target) by (unfold area, inner in *; rewrite LE; exact T).
  rewrite !upd_length. split; [|exact LE]. apply loc_add_parent; [apply loc_add_child; assumption| |]; unfold area, inner in *; rewrite upd_length; assumption.
Qed.
Lemma loc_fams r cur fams : forall off g g', loc g -> (forall x, In x cur -> inner g x) -> (forall t c, In (t, c) fams -> t = a \/ In t cs) -> reroute_fams r off cur fams g = Ok g' -> loc g' /\ length g' = length g.
Proof.
  induction fams as [|[t k] fams IH]; intros off g g' L C T E; [injection E as <-; auto|]. cbn [reroute_fams] in E. destruct (reroute r off cur t k g) as [g1|] eqn:E1; [|discriminate]. cbn [bind] in E.
  assert (A : area g t) by (destruct (T t k (or_introl eq_refl)) as [->|I]; [left; left; reflexivity|right; exact I]).
  destruct (loc_reroute _ _ _ _ _ _ _ L C A E1) as (L1 & LE).
  assert (C1 : forall x, In x cur -> inner g1 x) by (intros x I; unfold inner; rewrite LE; apply C, I).
  destruct (IH _ _ _ L1 C1 (fun t' c I => T t' c (or_intror I)) E) as (L2 & LE2). split; [exact L2|congruence].
Qed.
Lemma loc_level n K fams N flow lvl lta bottom result g cur k st : loc g -> (forall x, In x cur -> inner g x) -> (forall t c, In (t, c) (fams k) -> t = a \/ In t cs) -> incl bottom cs ->
  tree_level n K fams N flow lvl lta bottom result (g, cur) k = Ok st -> loc (fst st).
Proof.
  intros L C T O E. unfold tree_level in E. destruct (if (k =? K)%nat then _ else _) as [[g1 new]|] eqn:E1; [|discriminate]. cbn [bind] in E.
  destruct (reroute_fams _ _ _ _ _) as [g2|] eqn:E2; [|discriminate]. cbn [bind] in E. injection E as <-. cbn [fst].
  assert (X : loc g1 /\ (length g <= length g1)%nat).
  { destruct (k =? K)%nat.
    - destruct (relink _ _ _ _ _) as [g3|] eqn:E3; [|discriminate]. cbn [bind] in E1. injection E1 as <- <-. destruct (loc_relink _ _ _ _ _ _ L C O E3). split; [assumption|lia].
    - apply (loc_grow _ _ _ _ _ _ _ _ _ L C E1). }
  destruct X as [L1 LE]. eapply loc_fams; [exact L1| |exact T|exact E2]. intros x I. apply (inner_le g); [exact LE|apply C, I].
Qed.
Lemma loc_levels n K fams N flow lvl lta bottom result g0 (L : nat -> list nat) st : loc g0 ->
  (forall k, (k < K)%nat -> exists g, fold_res (tree_level n K fams N flow lvl lta bottom result) (seq 1 k) (g0, [a]) = Ok (g, L k) /\ forall x, In x (L k) -> inner g x) ->
  (forall k t c, In (t, c) (fams k) -> t = a \/ In t cs) -> incl bottom cs ->
  fold_res (tree_level n K fams N flow lvl lta bottom result) (seq 1 K) (g0, [a]) = Ok st -> loc (fst st).
Proof.
  intros L0 HL T O.
  assert (X : forall k, (k <= K)%nat -> forall st, fold_res (tree_level n K fams N flow lvl lta bottom result) (seq 1 k) (g0, [a]) = Ok st -> loc (fst st)); [|apply X; lia].
  induction k as [|k IH]; intros Hk st' E; [injection E as <-; exact L0|]. rewrite seq_S, fold_res_app in E. destruct (HL k) as (g & E1 & I); [lia|]. specialize (IH ltac:(lia) _ E1). cbn [fst] in IH.
  rewrite E1 in E. cbn [bind fold_res Nat.add] in E. destruct (tree_level _ _ _ _ _ _ _ _ _ _ _) as [st2|] eqn:E2; [|discriminate]. cbn in E. injection E as <-.
  apply (loc_level _ _ _ _ _ _ _ _ _ _ _ _ _ IH I (T (S k)) O E2).
Qed.
End Local.

(** ** The three operations succeed *)
Lemma lv_inner n K (N : nat -> Z) (fams : nat -> list (nat * Z)) flow lvl lta bottom (h h0 : heap Qc) a k g : length h0 = length h -> (k < K)%nat -> (a < length h)%nat -> built n K fams N flow lvl lta bottom h0 a k g ->
  forall x, In x (lv K N bottom h0 a k) -> inner h a g x.
Proof.
  intros LE Hk Ba B x I. pose proof (b_length _ _ _ _ _ _ _ _ _ _ _ _ B) as LH. rewrite (proj2 (Nat.eqb_neq k K)) in LH by lia.
  destruct k as [|k]; [destruct I as [<-|[]]; left; reflexivity|]. right. rewrite lv_mid in I by lia. apply in_seq in I. rewrite LH, start_SS by lia. pose proof (start_ge N h0 (S k)). lia.
Qed.

Lemma divide_safe_built h a d lvl : divisible h a d lvl -> (forall c, In c (kids h a) -> (c < length h)%nat) -> 2 <= d ->
  (forall n m l s, find_n_m_l d = Ok (n, m, l, s) -> (n_value (get h a) + frac_of_Z l * n_value (get h a) / frac_of_Z d <= frac_of_Z conveyor_speed_limit)%Qc) ->
  exists n m l s h' hb u, expand_divide h a d = Ok (h', u) /\ loc h a (kids h a) h' /\ find_n_m_l d = Ok (n, m, l, s) /\
    h' = tag_merge (if (length (pars h a) =? 0)%nat then 2 else 3) hb a /\
    built n (n + m) (divide_fams n m l a a) (n_at n m l) (fun k => ((n_value (get h a) + frac_of_Z l * n_value (get h a) / frac_of_Z d) / frac_of_Z (slots n k))%Qc)
      lvl (- Z.of_nat (n + m)) (kids h a) (upd a (set_children []) h) a (n + m) hb.
Proof.
  intros D R Hd Lim. pose proof D as D'. destruct D'. destruct (find_n_m_l_spec d ltac:(lia)) as (n & m & l & s & Hf & _). destruct (find_n_m_l_positive d n m l s Hd Hf) as (Hl & HW & Hnm & Hs). specialize (Lim _ _ _ _ Hf).
  destruct (looping_branches_spec n m (Z.to_nat l) l [] ltac:(lia)) as (lb & Elb & Glb).
  unfold expand_divide. rewrite Hf. cbn [bind]. unfold over.
  set (flow := (n_value (get h a) + frac_of_Z l * n_value (get h a) / frac_of_Z d)%Qc) in *.
  assert (FN : (Q2Qc 0 <= flow)%Qc) by (apply nonneg_plus; [exact dv_value|apply nonneg_over; [apply nonneg_mult; [apply foz_nonneg; lia|exact dv_value]|lia]]).
  rewrite (proj2 (above_limit_spec flow) Lim). cbn [bind].
  unfold compute_looping_branches. rewrite Elb. cbn [bind]. unfold level_of. rewrite dv_level. cbn [bind].
  set (h0 := upd a (set_children []) h). assert (L0 : length h0 = length h) by apply upd_length.
  assert (DL := divide_levels n m l lb flow lvl a a (kids h a) h0 [a] ltac:(intros k Hk; rewrite Glb by exact Hk; reflexivity)).
  assert (Hyp : forall k : nat, (0 < k <= n + m)%nat -> total (divide_fams n m l a a k) + n_at n m l k = radix n k * n_at n m l (k - 1)).
  { intros k Hk. unfold total, divide_fams. cbn [map snd zsum fold_right]. rewrite Z.add_0_r. apply n_at_step. lia. }
  assert (A1 : (a < length h0)%nat) by lia.
  assert (A2 : kids h0 a = []) by (unfold h0; rewrite get_upd_same by exact dv_node; reflexivity).
  assert (A3 : n_at n m l 0 = 1) by (apply n_at_0; lia).
  assert (A4 : forall k, (k <= n + m)%nat -> 0 <= n_at n m l k) by (intros k Hk; apply n_at_nonneg; [lia|exact Hk]).
  assert (A5 : forall k, negative (flow / frac_of_Z (slots n k))%Qc = false) by (intros k; apply negative_false, nonneg_over; [exact FN|pose proof (slots_pos n k); lia]).
  assert (A6 : forall k t' c, (0 < k <= n + m)%nat -> In (t', c) (divide_fams n m l a a k) -> 0 <= c /\ (t' < length h0)%nat /\ ~ In t' (kids h a)).
  { intros k t' c Hk [E|[]]. injection E as <- <-. split; [apply cut_bounds; [exact Hl|lia]|]. destruct (k <=? n)%nat; split; assumption. }
  assert (A7 : forall x, In x (kids h a) -> (x < length h0)%nat) by (intros x Hx; rewrite L0; apply R, Hx).
  assert (A8 : Z.of_nat (length (kids h a)) = n_at n m l (n + m)) by (rewrite n_at_bottom, dv_count; lia).
  destruct (build n (n + m) (divide_fams n m l a a) (n_at n m l) (fun k => (flow / frac_of_Z (slots n k))%Qc) lvl (- Z.of_nat (n + m)) (kids h a) (kids h a) h0 a A1 A2 Hnm A3 A4 Hyp A5 A6 A7 dv_distinct A8 dv_self) as (hb & Eb & BB).
  rewrite <- DL in Eb.
  destruct (fold_res (divide_bin _ _ _ _ _ _ _) _ _) as [st|] eqn:Ebin; [|discriminate Eb]. cbn [bind] in Eb, DL |- *. rewrite Eb in DL |- *. cbn [bind].
  exists n, m, l, s. eexists _, hb, _. split; [reflexivity|]. split; [|split; [first [exact Hf|reflexivity]|split; [reflexivity|exact BB]]].
  apply loc_tag_merge; [exact dv_node| |destruct (_ =? _)%nat; lia|left; reflexivity].
  change hb with (fst (hb, kids h a)). symmetry in DL.
  eapply loc_levels; [exact dv_node| | | | |exact DL].
  - apply loc_set_children; [exact dv_node|apply loc_start; [reflexivity|intros c I; split; [apply R, I|apply dv_parents, I]]|left; reflexivity|intros c []].
  - intros k Hk. destruct (build_upto n (n + m) (divide_fams n m l a a) (n_at n m l) (fun k => (flow / frac_of_Z (slots n k))%Qc) lvl (- Z.of_nat (n + m)) (kids h a) (kids h a) h0 a A1 A2 Hnm A3 A4 Hyp A5 A6 A7 dv_distinct A8 dv_self k Hk) as (g & Eg & Bg).
    exists g. split; [exact Eg|]. apply (lv_inner _ _ _ _ _ _ _ _ h h0 a k g L0 Hk dv_node Bg).
  - intros k t c [E|[]]. injection E as <- _. destruct (k <=? n)%nat; auto.
  - apply incl_refl.
Qed.

Lemma divide_safe h a d lvl : divisible h a d lvl -> (forall c, In c (kids h a) -> (c < length h)%nat) -> 2 <= d ->
  (forall n m l s, find_n_m_l d = Ok (n, m, l, s) -> (n_value (get h a) + frac_of_Z l * n_value (get h a) / frac_of_Z d <= frac_of_Z conveyor_speed_limit)%Qc) ->
  exists h' u, expand_divide h a d = Ok (h', u) /\ loc h a (kids h a) h'.
Proof. intros D R Hd Lim. destruct (divide_safe_built h a d lvl D R Hd Lim) as (n & m & l & s & h' & hb & u & E & L & _). exists h', u. auto. Qed.

Lemma extract_safe_built h a x c lvl ext ovf : extractable h a x c lvl ext ovf -> (ext < length h)%nat -> (ovf < length h)%nat -> 3 <= x -> 0 < c < x ->
  (forall n m l s, find_n_m_l (x / Z.gcd x (x - c)) = Ok (n, m, l, s) -> x + l * Z.gcd x (x - c) <= conveyor_speed_limit) ->
  exists n m l s h' hb u, expand_extract h a c = Ok (h', u) /\ loc h a (kids h a) h' /\
    let g := Z.gcd x (x - c) in let d := x / g in let e := c * d / x in
    find_n_m_l d = Ok (n, m, l, s) /\ h' = tags3 (if (length (pars h a) =? 0)%nat then 2 else 3) hb a ext ovf /\
    built n (n + m) (extract_fams n m l e (d - e) a ext ovf) (n3_at n m l e (d - e)) (fun k => (frac_of_Z (x + l * g) / frac_of_Z (slots n k))%Qc)
      lvl (- Z.of_nat (n + m)) [] (cleared h a ext ovf) a (n + m) hb /\
    fold_res (tree_level n (n + m) (extract_fams n m l e (d - e) a ext ovf) (n3_at n m l e (d - e)) (fun k => (frac_of_Z (x + l * g) / frac_of_Z (slots n k))%Qc) lvl (- Z.of_nat (n + m)) [] (kids h a))
      (seq 1 (n + m)) (cleared h a ext ovf, [a]) = Ok (hb, kids h a).
Proof.
  intros EX B1 B2 Hx Hc Lim. pose proof (extract_kids _ _ _ _ _ _ _ EX) as Kx. pose proof (extract_parts x c Hx Hc) as HP. cbn zeta in HP.
  set (g := Z.gcd x (x - c)) in *. set (d := x / g) in *. set (e := c * d / x) in *. destruct HP as (Hd & He & Exd & Ece).
  destruct (find_n_m_l_spec d ltac:(lia)) as (n & m & l & s & Hf & _). destruct (find_n_m_l_positive d n m l s ltac:(lia) Hf) as (Hl & HW & Hnm & Hs). specialize (Lim _ _ _ _ Hf).
  assert (Hg : 0 < g). { destruct (Z.eq_dec g 0) as [E|E]; [rewrite E in Exd; lia|]. pose proof (Z.gcd_nonneg x (x - c)). fold g in H. lia. }
  pose proof EX as EX'. destruct EX'. destruct ex_distinct as (N1 & N2 & N3). destruct ex_parents as (P1 & P2).
  assert (CH : exists c0 c1, at_index (kids h a) 0 = Ok c0 /\ at_index (kids h a) 1 = Ok c1 /\ (if frac_eqb (n_value (get h c0)) (frac_of_Z c) then (c0, c1) else (c1, c0)) = (ext, ovf)).
  { destruct ex_children as [->|[-> Ne]].
    - exists ext, ovf. split; [reflexivity|]. split; [reflexivity|]. rewrite ex_extract. rewrite (proj2 (frac_eq_decides _ _) eq_refl). reflexivity.
    - exists ovf, ext. split; [reflexivity|]. split; [reflexivity|]. rewrite ex_overflow. destruct (frac_eqb _ _) eqn:E; [|reflexivity]. apply frac_eq_decides, foz_inj in E. exfalso. clear - E Ne. lia. }
  destruct CH as (c0 & c1 & Ec0 & Ec1 & Sel).
  destruct (looping_branches_spec n m (Z.to_nat l) l [] ltac:(lia)) as (lbl & Elbl & Gl).
  destruct (looping_branches_spec n m (Z.to_nat e) e [] ltac:(lia)) as (lbe & Elbe & Ge).
  destruct (looping_branches_spec n m (Z.to_nat (d - e)) (d - e) [] ltac:(lia)) as (lbo & Elbo & Go).
  unfold expand_extract. rewrite ex_value, as_int_foz. cbn [bind]. cbv zeta. fold g. rewrite (proj2 (Z.eqb_neq g 0)) by lia. fold d. rewrite Hf. cbn [bind].
  rewrite (proj2 (Z.ltb_ge conveyor_speed_limit (x + l * g)) Lim). cbn [bind]. fold e.
  unfold compute_looping_branches. rewrite Elbl, Elbe, Elbo. cbn [bind]. unfold level_of. rewrite ex_level. cbn [bind]. rewrite Ec0, Ec1. cbn [bind]. rewrite Sel.
  change (upd a (set_children []) (upd ovf (set_parents []) (upd ext (set_parents []) h))) with (cleared h a ext ovf).
  set (h0 := cleared h a ext ovf). assert (L0 : length h0 = length h) by apply cleared_length.
  set (flow := frac_of_Z (x + l * g)). assert (FN : (Q2Qc 0 <= flow)%Qc) by (apply foz_nonneg; lia).
  assert (DL := extract_levels n m l e (d - e) lbl lbe lbo flow lvl a ext ovf (kids h a) h0 [a]
    ltac:(intros k Hk; rewrite Gl by exact Hk; reflexivity) ltac:(intros k Hk; rewrite Ge by exact Hk; reflexivity) ltac:(intros k Hk; rewrite Go by exact Hk; reflexivity)).
  assert (A1 : (a < length h0)%nat) by lia.
  assert (A2 : kids h0 a = []) by (unfold h0; rewrite cleared_get by (assumption || congruence); rewrite Nat.eqb_refl; reflexivity).
  assert (A3 : n3_at n m l e (d - e) 0 = 1) by (apply n3_0; lia).
  assert (A4 : forall k, (k <= n + m)%nat -> 0 <= n3_at n m l e (d - e) k) by (intros k Hk; apply n3_nonneg; lia).
  assert (Hyp : forall k : nat, (0 < k <= n + m)%nat -> total (extract_fams n m l e (d - e) a ext ovf k) + n3_at n m l e (d - e) k = radix n k * n3_at n m l e (d - e) (k - 1)) by (intros k Hk; apply n3_step; lia).
  assert (A5 : forall k, negative (flow / frac_of_Z (slots n k))%Qc = false) by (intros k; apply negative_false, nonneg_over; [exact FN|pose proof (slots_pos n k); lia]).
  assert (A6 : forall k t' c', (0 < k <= n + m)%nat -> In (t', c') (extract_fams n m l e (d - e) a ext ovf k) -> 0 <= c' /\ (t' < length h0)%nat /\ ~ In t' []).
  { intros k t' c' Hk I. rewrite L0. unfold extract_fams in I. cbn [In] in I. destruct I as [I|[I|[I|[]]]]; injection I as <- <-; (split; [apply cut_bounds; lia|split; [assumption|intros []]]). }
  assert (A7 : forall y : nat, In y [] -> (y < length h0)%nat) by (intros y []).
  assert (A8 : Z.of_nat (@length nat []) = n3_at n m l e (d - e) (n + m)) by (rewrite n3_bottom by lia; reflexivity).
  assert (A9 : ~ In a []) by (intros []).
  destruct (build n (n + m) (extract_fams n m l e (d - e) a ext ovf) (n3_at n m l e (d - e)) (fun k => (flow / frac_of_Z (slots n k))%Qc) lvl (- Z.of_nat (n + m)) [] (kids h a) h0 a A1 A2 Hnm A3 A4 Hyp A5 A6 A7 (NoDup_nil _) A8 A9) as (hb & Eb & BB).
  rewrite <- DL in Eb.
  destruct (fold_res (extract_bin _ _ _ _ _ _ _ _ _ _ _) _ _) as [st|] eqn:Ebin; [|discriminate Eb]. cbn [bind] in Eb, DL |- *. rewrite Eb in DL |- *. cbn [bind].
  assert (PA : pars h0 a = pars h a) by (unfold h0; rewrite cleared_get by (assumption || congruence); rewrite Nat.eqb_refl; reflexivity).
  exists n, m, l, s. eexists _, hb, _. split; [reflexivity|]. split; [|split; [first [exact Hf|reflexivity]|split; [try rewrite PA; reflexivity|split; [exact BB|symmetry; exact DL]]]].
  assert (Ie : In ext (kids h a)) by (apply Kx; auto). assert (Io : In ovf (kids h a)) by (apply Kx; auto).
  apply loc_tag_merge; [exact ex_node| |lia|right; auto]. apply loc_tag_merge; [exact ex_node| |lia|right; auto].
  apply loc_tag_merge; [exact ex_node| |destruct (_ =? _)%nat; lia|left; reflexivity].
  change hb with (fst (hb, kids h a)). symmetry in DL.
  eapply loc_levels; [exact ex_node| | | | |exact DL].
  - unfold h0, cleared. apply loc_set_children; [exact ex_node| |left; reflexivity|intros ? []].
    apply loc_set_parents; [exact ex_node| |right; exact Io|intros ? []]. apply loc_set_parents; [exact ex_node| |right; exact Ie|intros ? []].
    apply loc_start; [reflexivity|]. intros y I. apply Kx in I. destruct I as [->| ->]; auto.
  - intros k Hk. destruct (build_upto n (n + m) (extract_fams n m l e (d - e) a ext ovf) (n3_at n m l e (d - e)) (fun k => (flow / frac_of_Z (slots n k))%Qc) lvl (- Z.of_nat (n + m)) [] (kids h a) h0 a A1 A2 Hnm A3 A4 Hyp A5 A6 A7 (NoDup_nil _) A8 A9 k Hk) as (g1 & Eg & Bg).
    exists g1. split; [exact Eg|]. apply (lv_inner _ _ _ _ _ _ _ _ h h0 a k g1 L0 Hk ex_node Bg).
  - intros k t c' I. unfold extract_fams in I. cbn [In] in I. destruct I as [I|[I|[I|[]]]]; injection I as <- <-; auto.
  - intros ? [].
Qed.

Lemma extract_safe h a x c lvl ext ovf : extractable h a x c lvl ext ovf -> (ext < length h)%nat -> (ovf < length h)%nat -> 3 <= x -> 0 < c < x ->
  (forall n m l s, find_n_m_l (x / Z.gcd x (x - c)) = Ok (n, m, l, s) -> x + l * Z.gcd x (x - c) <= conveyor_speed_limit) ->
  exists h' u, expand_extract h a c = Ok (h', u) /\ loc h a (kids h a) h'.
Proof. intros EX B1 B2 Hx Hc Lim. destruct (extract_safe_built h a x c lvl ext ovf EX B1 B2 Hx Hc Lim) as (n & m & l & s & h' & hb & u & E & L & _). exists h', u. auto. Qed.

Lemma split_safe h a c lvl : (a < length h)%nat -> n_level (get h a) = Some lvl -> 0 <= c -> (forall x, In x (kids h a) -> (x < length h)%nat /\ pars h x = [a]) ->
  exists h' u, expand_split h a c = Ok (h', u) /\ loc h a (kids h a) h'.
Proof.
  intros Ba El Hc K. unfold expand_split, level_of. cbv zeta. rewrite El. cbn [bind].
  destruct (new_node h _ (Some (lvl + 1)) (-1)) as [[g k]|] eqn:E.
  2: { exfalso. unfold new_node in E. rewrite (proj2 (negative_false _)) in E; [discriminate|]. unfold over. apply nonneg_mult; [apply nonneg_over; [apply foz_nonneg; lia|lia]|apply foz_nonneg; lia]. }
  cbn [bind]. eexists _, _. split; [reflexivity|].
  pose proof (loc_start h a (kids h a) eq_refl K) as S0. destruct (loc_new h a _ Ba _ _ _ _ _ _ S0 E) as (L1 & I1 & LE & _).
  set (g1 := upd k (set_parents [a]) (upd k (set_children [k]) g)).
  assert (Ia : forall x, inner h a x a) by (intros x; left; reflexivity).
  assert (G1 : loc h a (kids h a) g1 /\ length g1 = length g).
  { split; [|unfold g1; rewrite !upd_length; reflexivity]. unfold g1. apply loc_set_parents; [exact Ba| | |].
    - apply loc_set_children; [exact Ba|exact L1|exact I1|]. intros x [<-|[]]. left. exact I1.
    - left. unfold inner. rewrite upd_length. exact I1.
    - intros p [<-|[]]. apply Ia. }
  destruct G1 as [G1 LG]. assert (Ek : kids g1 a = kids h a).
  { unfold new_node in E. destruct (negative _); [discriminate|]. injection E as <- <-. unfold g1. rewrite !get_upd_other by lia. rewrite get_app_l by exact Ba. reflexivity. }
  rewrite Ek.
  assert (I2 : forall x, length x = length g1 -> inner h a x k) by (intros x Ex; unfold inner in *; rewrite Ex, LG; exact I1).
  set (g2 := upd a (set_children [k]) g1).
  assert (X : loc h a (kids h a) g2 /\ length g2 = length g1).
  { split; [|unfold g2; rewrite !upd_length; reflexivity]. apply loc_set_children; [exact Ba|exact G1|apply Ia|]. intros x [<-|[]]. left. apply I2. reflexivity. }
  apply (fold_left_ind _ (fun x => loc h a (kids h a) x /\ length x = length g1) (kids h a)); [|exact X].
  intros x y Iy [Lx LEx]. destruct (frac_eqb _ _).
  - rewrite !upd_length. split; [|exact LEx]. apply loc_set_parents; [exact Ba|apply loc_add_child; [exact Ba|exact Lx|apply I2, LEx|right; exact Iy]|right; exact Iy|].
    intros p [<-|[]]. apply I2. rewrite upd_length. exact LEx.
  - rewrite upd_length. split; [|exact LEx]. apply loc_add_child; [exact Ba|exact Lx|apply Ia|right; exact Iy].
Qed.
