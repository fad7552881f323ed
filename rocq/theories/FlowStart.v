(** A network of the search before it is expanded: the flow through it, and what
    its expansion needs. *)
From Verif Require Import Base BaseLemmas Cost CostSpec CostProofs Utils Fractions FractionsProofs Load Tree TreeSpec HeapLemmas Expand ExpandSpec LevelProofs ExpandProofs
  FrameProofs MergeProofs LocalProofs MergeSafe TraverseSafe SavedSpec SavedProofs Conclude SizeSpec ExtractProofs FlowSpec FlowProofs FlowMerge FlowOps FlowWalk.
From Coq Require Import QArith Qcanon.
Open Scope Z_scope.

Lemma foz_sum l : qcsum (map frac_of_Z l) = frac_of_Z (zsum l).
Proof. induction l as [|x l IH]; [symmetry; exact foz_0|]. cbn [map]. change (zsum (x :: l)) with (x + zsum l). rewrite foz_plus, <- IH. reflexivity. Qed.
Lemma foz_minus a b : frac_of_Z (a - b) = (frac_of_Z a - frac_of_Z b)%Qc.
Proof. replace a with (a - b + b) at 2 by ring. rewrite foz_plus. ring. Qed.
Lemma cnt_one x l : NoDup l -> In x l -> cnt x l = 1%nat.
Proof. intros N I. apply (proj1 (NoDup_count_occ' Nat.eq_dec l) N), I. Qed.
Lemma gcd_rest v c : Z.gcd v (v - c) = Z.gcd v c.
Proof. rewrite <- (Z.gcd_opp_r v (v - c)). replace (- (v - c)) with (c - v) by lia. apply Z.gcd_sub_diag_r. Qed.

(** the splitters and mergers at the nodes that are new with the expansion of a tag
    of a node carrying [v] *)
Definition new_nodes (v : Z) (u : tag) : nat :=
  match u with
  | TDivide d => match find_n_m_l d with Ok (n, m, l, _) => Z.to_nat (zsum (map (n_at n m l) (seq 0 (n + m))) - 1) | Err _ => O end
  | TExtract c => match find_n_m_l (v / Z.gcd v (v - c)) with
      | Ok (n, m, l, _) => Z.to_nat (zsum (map (n3_at n m l (c / Z.gcd v (v - c)) ((v - c) / Z.gcd v (v - c))) (seq 0 (n + m))) - 1) | Err _ => O end
  | TSplit _ => 2%nat
  | TMerge _ => O
  end.
Lemma sum_first (N : nat -> Z) K : N O = 1 -> (forall k, (k <= K)%nat -> 0 <= N k) -> (0 < K)%nat -> 1 <= zsum (map N (seq 0 K)).
Proof.
  intros N0 NN HK. destruct K as [|K]; [lia|]. cbn [seq map]. change (zsum (?u :: ?l)) with (u + zsum l). rewrite N0.
  assert (0 <= zsum (map N (seq 1 K))); [|lia]. assert (G : forall l, (forall k, In k l -> 0 <= N k) -> 0 <= zsum (map N l)).
  { induction l as [|k l IH]; intros H; [cbn; lia|]. cbn [map]. change (zsum (?u :: ?v)) with (u + zsum v). specialize (IH (fun k I => H k (or_intror I))). specialize (H k (or_introl eq_refl)). lia. }
  apply G. intros k I. apply in_seq in I. apply NN. lia.
Qed.

Section Start.
Variables (h : heap Z) (t : tree Z) (vals : list Z) (g : heap Qc).
Hypothesis N : network h t vals.
Hypothesis Lv : levelled h t.
Hypothesis Tg : forall a, in_tree h t a -> tagged h a.
Hypothesis Same : forall a, in_tree h t a -> (a < length g)%nat /\ get g a = node_frac (get h a).
Variable nodes : list nat.
Hypothesis Nodes : lists_tree h t nodes.
Definition start : heap Qc := set_levels 0 (t_roots t) g.
Definition part (a : nat) : Prop := in_tree h t a \/ (length start <= a)%nat.
Notation old := (old start part).

Lemma start_length : length start = length g.
Proof. apply set_levels_length. Qed.
Lemma old_in x : old x <-> in_tree h t x.
Proof using Same. split; [intros [[I|B] C]; [exact I|clear -B C; lia]|]. intros I. split; [left; exact I|]. rewrite start_length. apply (Same x I). Qed.
Lemma st_kids x : old x -> kids start x = children h x.
Proof using Same. intros O. apply (H_kids h t g Same), old_in, O. Qed.
Lemma st_pars x : old x -> pars start x = parents h x.
Proof using Same. intros O. apply (H_pars h t g Same), old_in, O. Qed.
Lemma st_tags x : old x -> n_expands (get start x) = n_expands (get h x).
Proof using Same. intros O. apply (H_tags h t g Same), old_in, O. Qed.
Lemma st_val x : old x -> val start x = frac_of_Z (value h x).
Proof using Same. intros O. apply (H_value h t g Same), old_in, O. Qed.
Lemma st_kid x c : old x -> In c (children h x) -> old c.
Proof. intros O I. apply old_in in O. apply old_in. apply (child_in h t x c O I). Qed.
Lemma st_par x c : old x -> In c (parents h x) -> old c.
Proof. intros O I. apply old_in in O. apply old_in. apply (net_parents _ _ _ N x c O I). Qed.
Lemma st_links x c : old x -> old c -> (In c (children h x) <-> In x (parents h c)).
Proof. intros O1 O2. apply (net_links _ _ _ N); apply old_in; assumption. Qed.
Lemma st_loop x : old x -> ~ In x (children h x).
Proof. intros O I. destruct (lev_edges _ _ Lv x x (proj1 (old_in x) O) I) as (l1 & l2 & E1 & E2 & Lt). rewrite E1 in E2. injection E2 as <-. lia. Qed.
Lemma st_simple x : old x -> NoDup (children h x) /\ NoDup (parents h x).
Proof. intros O. apply (net_simple _ _ _ N x), old_in, O. Qed.
Lemma st_pos x : old x -> 0 < value h x.
Proof. intros O. apply (net_positive _ _ _ N x), old_in, O. Qed.

(** the tags of a node *)
Lemma st_own x : old x -> exists own, n_expands (get h x) = (if (3 <? length (parents h x))%nat then [TMerge 3] else []) ++ own /\
  (own = [] \/ exists u, own = [u] /\ is_op u = true) /\
  ((2 <= length (children h x))%nat -> split_tags (value h x) (map (value h) (children h x)) own) /\ ((length (children h x) < 2)%nat -> own = []).
Proof using Tg Same.
  intros O. destruct (Tg x (proj1 (old_in x) O)) as (own & E & S1 & S2). exists own. split; [exact E|]. split; [|split; assumption].
  destruct (Nat.lt_ge_cases (length (children h x)) 2) as [B|B]; [left; apply S2, B|]. destruct (S1 B) as [c _ _ _|d q _ _ _|c q _ _ _ _].
  - destruct (zmem c _); [left; reflexivity|right; eexists; split; reflexivity].
  - destruct (3 <? d); [right; eexists; split; reflexivity|left; reflexivity].
  - right; eexists; split; reflexivity.
Qed.
Lemma st_op x u : old x -> In u (n_expands (get h x)) -> is_op u = true ->
  (2 <= length (children h x))%nat /\ n_expands (get h x) = (if (3 <? length (parents h x))%nat then [TMerge 3] else []) ++ [u] /\ split_tags (value h x) (map (value h) (children h x)) [u].
Proof using Tg Same.
  intros O I Ou. destruct (st_own x O) as (own & E & F & S1 & S2). assert (Io : own = [u]).
  { rewrite E in I. apply in_app_or in I. destruct I as [I|I]; [destruct (3 <? _)%nat; [destruct I as [<-|[]]; discriminate|destruct I]|]. destruct F as [->|(w & -> & _)]; [destruct I|destruct I as [->|[]]; reflexivity]. }
  subst own. assert (L : (2 <= length (children h x))%nat) by (destruct (Nat.lt_ge_cases (length (children h x)) 2) as [B|B]; [discriminate (S2 B)|exact B]). auto.
Qed.
Lemma st_idle x : old x -> ~ has_op start x -> (2 <= length (children h x))%nat -> split_tags (value h x) (map (value h) (children h x)) [].
Proof.
  intros O Hn L. destruct (st_own x O) as (own & E & [->|(u & -> & Ou)] & S1 & _); [apply S1, L|]. exfalso. apply Hn. exists u. split; [|exact Ou]. rewrite st_tags, E by exact O. apply in_or_app. right. left. reflexivity.
Qed.
Lemma st_has x : old x -> has_op start x -> (2 <= length (children h x))%nat.
Proof using Tg Same. intros O (u & I & Ou). rewrite st_tags in I by exact O. apply (st_op x u O I Ou). Qed.
Lemma st_alone x c : old x -> (2 <= length (children h x))%nat -> In c (children h x) -> parents h c = [x].
Proof.
  intros O L I. destruct (net_flow _ _ _ N x (proj1 (old_in x) O)) as [E|[(_ & F & _)|(m & E & _)]]; [rewrite E in I; destruct I| |rewrite E in L; cbn in L; lia]. rewrite Forall_forall in F. apply F, I.
Qed.

(** ** the flow *)
Definition carries (x c : nat) : Qc := if (length (kids start x) =? 1)%nat then val start x else val start c.
Lemma two_kids x c : old x -> (2 <= length (children h x))%nat -> carries x c = val start c.
Proof. intros O L. unfold carries. rewrite st_kids by exact O. destruct (Nat.eqb_spec (length (children h x)) 1); [lia|reflexivity]. Qed.
Lemma val_pos x : old x -> (Q2Qc 0 < val start x)%Qc.
Proof. intros O. rewrite st_val by exact O. apply foz_pos, st_pos, O. Qed.
Lemma pair_vals x c a b : old x -> Permutation (map (value h) (children h x)) [a; b] -> a = c -> exists e o, e <> o /\ Permutation (children h x) [e; o] /\ value h e = c /\ value h o = b.
Proof.
  intros O Pm <-. destruct (st_simple x O) as [ND _]. destruct (children h x) as [|k1 [|k2 [|k3 ks]]]; try (apply Permutation_length in Pm; cbn in Pm; lia).
  inversion ND as [|? ? Nk _]; subst. assert (k1 <> k2) by (intros ->; apply Nk; left; reflexivity). cbn [map] in Pm. apply Permutation_length_2 in Pm.
  destruct Pm as [[E1 E2]|[E1 E2]]; [exists k1, k2|exists k2, k1]; repeat split; auto. apply perm_swap.
Qed.
Lemma first_hands x : old x -> ~ has_op start x -> kids start x <> [] -> hands_on (ki start) (val start) carries x.
Proof.
  intros O Hn NE. pose proof (st_kids x O) as EK. rewrite EK in NE.
  destruct (Nat.lt_ge_cases (length (children h x)) 2) as [B|B].
  - assert (E1 : length (children h x) = 1%nat) by (destruct (children h x); [congruence|cbn in *; lia]). apply on_equally; unfold ki; rewrite EK, E1; [lia|]. intros y I. unfold carries. rewrite EK, E1. cbn [Nat.eqb].
    change (Z.of_nat 1) with 1. rewrite qc_div_1. reflexivity.
  - pose proof (st_idle x O Hn B) as S. remember (@nil tag) as own eqn:Eo. destruct S as [c Bc Nc Pm|d q Hd Ev Es|c q _ _ _ _]; [| |discriminate].
    + destruct (zmem c [60; 120; 270; 480; 780; 1200]) eqn:Z; [|discriminate]. destruct (pair_vals x c c (value h x - c) O Pm eq_refl) as (e & o & Ne & Pe & Ve & Vo).
      assert (Oe : old e /\ old o) by (split; apply (st_kid x); try exact O; apply (Permutation_in _ (Permutation_sym Pe)); cbn; auto). destruct Oe as [Oe Oo].
      apply (on_overflowing _ _ _ x e o c); [unfold ki; rewrite EK; exact Pe|exact Ne| | |].
      * unfold zmem in Z. apply existsb_exists in Z. destruct Z as (s & Is & Es). apply Z.eqb_eq in Es. subst s. exact Is.
      * rewrite two_kids, st_val by assumption. rewrite Ve. reflexivity.
      * rewrite two_kids, !st_val by assumption. rewrite Vo. apply foz_minus.
    + assert (El : length (children h x) = Z.to_nat d) by (apply (f_equal (@length Z)) in Es; rewrite map_length, repeat_length in Es; exact Es).
      assert (D3 : d <= 3) by (destruct (3 <? d) eqn:E3; [discriminate|apply Z.ltb_ge, E3]).
      apply on_equally; unfold ki; rewrite EK, El; [lia|]. intros y I. rewrite Z2Nat.id by lia. rewrite two_kids by assumption. rewrite !st_val by (try exact O; apply (st_kid x y O I)).
      assert (Vy : value h y = q) by (apply (repeat_spec (Z.to_nat d)); rewrite <- Es; apply in_map, I). rewrite Vy, Ev, foz_mult. field. apply foz_neq0. lia.
Qed.

Lemma first_into y : old y -> val start y = (input start (t_roots t) y + qcsum (map (fun p => carries p y) (parents h y)))%Qc.
Proof.
  intros O. pose proof (proj1 (old_in y) O) as Iy. unfold input. destruct (in_dec Nat.eq_dec y (t_roots t)) as [I|I].
  - rewrite (proj2 (net_top _ _ _ N y Iy) I). cbn. ring.
  - destruct (parents h y) as [|p ps] eqn:EP; [exfalso; apply I, (net_top _ _ _ N y Iy), EP|]. assert (Op : old p) by (apply (st_par y p O); rewrite EP; left; reflexivity).
    assert (Ip : In y (children h p)) by (apply (st_links p y Op O); rewrite EP; left; reflexivity).
    destruct (net_flow _ _ _ N p (proj1 (old_in p) Op)) as [E|[(L & F & _)|(m & E & _ & _ & F & V)]]; [rewrite E in Ip; destruct Ip| |].
    + rewrite Forall_forall in F. pose proof (F y Ip) as E1. rewrite EP in E1. injection E1 as ->. cbn. rewrite two_kids by assumption. ring.
    + rewrite E in Ip. destruct Ip as [->|[]]. rewrite EP in F, V. rewrite st_val, V by exact O. rewrite Forall_forall in F. rewrite <- foz_sum, map_map.
      rewrite (map_ext_in (fun q => carries q y) (fun q => frac_of_Z (value h q)) (p :: ps)); [ring|]. intros q Iq. assert (Oq : old q) by (apply (st_par y q O); rewrite EP; exact Iq).
      unfold carries. rewrite st_kids, (F q Iq) by exact Oq. cbn [length Nat.eqb]. apply st_val, Oq.
Qed.

(** ** the belts of the expansion *)
Definition named_into (y : nat) : list (nat * nat) := flat_map (fun x => map (pair x) (delivered h x y)) (parents h y).
Definition named_back (y : nat) : list nat := flat_map (returned (value h y)) (n_expands (get h y)).
(** ** the machines of the expansion *)
Definition named_grow (y : nat) : nat := list_sum (map (new_nodes (value h y)) (n_expands (get h y))).
Definition named_pend (x : nat) : nat := (named_grow x + (length (named_back x) + (length (named_into x) + source (t_roots t) x) mod 2) / 2 + list_sum (map (fun c => length (named_into c) / 2) (kids start x)))%nat.
Definition operated (x : nat) : bool := existsb is_op (n_expands (get start x)).
Definition all_machines : nat := (list_sum (map (at_node (t_roots t) (ki start) (pa start)) nodes) + list_sum (map named_pend (filter operated nodes)))%nat.
Lemma operated_iff x : operated x = true <-> has_op start x.
Proof. unfold operated. rewrite existsb_exists. reflexivity. Qed.

Lemma start_flow : flowing start part (t_roots t) named_pend all_machines (fun _ => True) start.
Proof.
  exists (val start), carries. assert (IO : forall x, inside part (length start) x <-> old x) by (intros x; reflexivity). constructor.
  - lia.
  - intros x c O I. apply IO in O. apply IO. unfold ki in I. rewrite st_kids in I by exact O. apply (st_kid x c O I).
  - intros x c O I. apply IO in O. apply IO. unfold pa in I. rewrite st_pars in I by exact O. apply (st_par x c O I).
  - intros x y Ox Oy Ne. apply IO in Ox, Oy. unfold ki, pa. rewrite st_kids, st_pars by assumption. destruct (in_dec Nat.eq_dec y (children h x)) as [I|I].
    + rewrite (cnt_one y) by (try exact I; apply (st_simple x Ox)). rewrite (cnt_one x); [reflexivity|apply (st_simple y Oy)|apply (st_links x y Ox Oy), I].
    + rewrite (cnt_out y) by exact I. rewrite (cnt_out x); [reflexivity|]. intros J. apply I, (st_links x y Ox Oy), J.
  - intros x O I. apply IO in O. unfold pa in I. rewrite st_pars in I by exact O. apply (st_loop x O), (st_links x x O O), I.
  - intros x O I. unfold ki in I. rewrite st_kids in I by exact O. apply (st_loop x O I).
  - intros y O. apply IO in O. unfold pa, ki. rewrite st_pars, st_kids by exact O. rewrite (cnt_out y) by (apply st_loop, O). rewrite (first_into y O). change (Z.of_nat 0) with 0. rewrite foz_0. ring.
  - reflexivity.
  - intros x c (O & Hx & _) I. apply two_kids; [exact O|apply st_has; assumption].
  - intros x O W NE. apply IO in O. apply first_hands; [exact O| |exact NE]. intros Hx. apply W. split; [exact O|]. split; [exact Hx|exact Logic.I].
  - intros x O. apply IO in O. unfold ki. tauto.
  - intros x O. apply IO in O. split; [apply val_pos, O|]. intros c I. unfold ki in I. rewrite st_kids in I by exact O. unfold carries. destruct (_ =? _)%nat; apply val_pos; [exact O|apply (st_kid x c O I)].
  - intros x O. apply IO, old_in in O. destruct O as (r & Ir & B). induction B as [r|r b c B IH I]; [apply reached_root, Ir|]. apply (reached_out _ _ b c); [apply IH, Ir|].
    unfold ki. rewrite st_kids; [exact I|]. apply old_in. exists r. split; [exact Ir|exact B].
  - intros x O No. exfalso. apply No, IO, O.
  - intros M _ H x O. apply H, IO, O.
  - intros ns todo ND1 I1 ND2 I2. destruct Nodes as [ND IN]. unfold all_machines. f_equal.
    + apply list_sum_perm, Permutation_map, NoDup_Permutation; [exact ND1|exact ND|]. intros x. rewrite I1, IN, IO. apply old_in.
    + apply list_sum_perm, Permutation_map, NoDup_Permutation; [exact ND2|apply NoDup_filter, ND|]. intros x. rewrite I2, filter_In, IN, operated_iff. rewrite <- old_in. unfold waiting. tauto.
Qed.

Lemma back_own y own : n_expands (get h y) = (if (3 <? length (parents h y))%nat then [TMerge 3] else []) ++ own -> named_back y = flat_map (returned (value h y)) own.
Proof. intros E. unfold named_back. rewrite E. destruct (3 <? _)%nat; reflexivity. Qed.
Lemma into_alone x c : parents h c = [x] -> named_into c = map (pair x) (delivered h x c).
Proof. intros E. unfold named_into. rewrite E. cbn. apply app_nil_r. Qed.
Lemma st_named x u : old x -> In u (n_expands (get start x)) -> op_named start named_into named_back named_grow x u.
Proof.
  intros O I. rewrite st_tags in I by exact O. destruct (is_op u) eqn:Ou; [|destruct u; try discriminate; exact Logic.I]. destruct (st_op x u O I Ou) as (L & E & S).
  assert (EB : named_back x = returned (value h x) u) by (rewrite (back_own x [u] E); cbn; apply app_nil_r).
  assert (EF : find extraction (n_expands (get h x)) = if extraction u then Some u else None) by (rewrite E; destruct (3 <? _)%nat; reflexivity).
  assert (EI : forall c, In c (kids start x) -> named_into c = map (pair x) (delivered h x c)) by (intros c J; rewrite st_kids in J by exact O; apply into_alone, (st_alone x c O L J)).
  assert (EG : named_grow x = new_nodes (value h x) u) by (unfold named_grow; rewrite E; destruct (3 <? _)%nat; cbn [app map list_sum fold_right new_nodes]; lia).
  destruct u as [c|d|k|s]; try discriminate; cbn [op_named].
  - intros v n m l s Ev Ef. rewrite st_val in Ev by exact O. apply foz_inj in Ev. subst v. rewrite EB. unfold returned. cbn [branches]. rewrite gcd_rest in Ef. rewrite Ef. split; [reflexivity|]. rewrite <- gcd_rest in Ef. split.
    { rewrite EG. cbn [new_nodes]. rewrite Ef.
      assert (Bc : 0 < c < value h x) by (remember [TExtract c] as own eqn:Eo; destruct S as [c' Bc _ _|d' q _ _ _|c' q _ _ _ _]; [destruct (zmem c' _); [discriminate|injection Eo as ->; exact Bc]|destruct (3 <? d'); discriminate|discriminate]).
      assert (H3 : 3 <= value h x) by (remember [TExtract c] as own eqn:Eo; destruct S as [c' Bc' Ne _|d' q _ _ _|c' q _ _ _ _]; [destruct (zmem c' _); [discriminate|injection Eo as ->; lia]|destruct (3 <? d'); discriminate|discriminate]).
      pose proof (extract_parts (value h x) c H3 Bc) as HP. cbn zeta in HP. set (gg := Z.gcd (value h x) (value h x - c)) in *. set (d := value h x / gg) in *. set (e := c * d / value h x) in *. destruct HP as (Hd & He & Exd & Ece).
      assert (Hg : 0 < gg) by (pose proof (Z.gcd_nonneg (value h x) (value h x - c)) as Y; fold gg in Y; clear - Y Ece Bc; destruct (Z.eq_dec gg 0) as [X|X]; [rewrite X in Ece; lia|lia]).
      assert (Qe : c / gg = e) by (rewrite Ece at 1; apply Z.div_mul; clear - Hg; lia). assert (Qo : (value h x - c) / gg = d - e) by (rewrite Exd, Ece at 1; rewrite <- Z.mul_sub_distr_r; apply Z.div_mul; clear - Hg; lia). rewrite Qe, Qo.
      destruct (find_n_m_l_positive d n m l s ltac:(clear - He; lia) Ef) as (Hl & HW & Hnm & _).
      pose proof (sum_first (n3_at n m l e (d - e)) (n + m)) as SF. rewrite Z2Nat.id; [ring|]. assert (1 <= zsum (map (n3_at n m l e (d - e)) (seq 0 (n + m)))); [|lia]. clear Qe Qo. clearbody d e.
      apply SF; [apply n3_0; clear - He Hl HW; lia|intros k Hk; apply n3_nonneg; try exact Hk; clear - He Hl HW; lia|exact Hnm]. }
    intros y w J Ew. rewrite gcd_rest in *. rewrite (EI y J). unfold delivered. rewrite EF. cbn [extraction]. rewrite Ef. rewrite st_val in Ew by (apply (st_kid x y O); rewrite <- st_kids by exact O; exact J). apply foz_inj in Ew. rewrite Ew. reflexivity.
  - split; [intros n m l s Ef; rewrite EB, EG; unfold returned; cbn [branches new_nodes]; rewrite Ef; split; [reflexivity|]|].
    { assert (Hd : 2 <= d) by (remember [TDivide d] as own eqn:Eo; destruct S as [c' _ _ _|d' q Hd _ _|c' q _ _ _ _]; [destruct (zmem c' _); discriminate|destruct (3 <? d'); [injection Eo as <-; exact Hd|discriminate]|discriminate]).
      destruct (find_n_m_l_positive d n m l s Hd Ef) as (Hl & HW & Hnm & _). pose proof (sum_first (n_at n m l) (n + m)) as SF. rewrite Z2Nat.id; [ring|]. assert (1 <= zsum (map (n_at n m l) (seq 0 (n + m)))); [|lia].
      apply SF; [apply n_at_0; clear - Hd Hl HW; lia|intros k Hk; apply n_at_nonneg; try exact Hk; clear - Hd Hl HW; lia|exact Hnm]. } intros c J. rewrite (EI c J). unfold delivered. rewrite EF. reflexivity.
  - rewrite EB, EG. split; [reflexivity|]. split; [reflexivity|]. intros c J. rewrite (EI c J). unfold delivered. rewrite EF. reflexivity.
Qed.
Lemma idle_delivers x y : old x -> ~ has_op start x -> delivered h x y = [O].
Proof.
  intros Ox Hn. unfold delivered. destruct (find extraction (n_expands (get h x))) as [u|] eqn:E; [|reflexivity]. apply find_some in E. destruct E as [I Eu]. exfalso. apply Hn. exists u. rewrite st_tags by exact Ox. split; [exact I|]. destruct u; try discriminate; reflexivity.
Qed.
Lemma idle_into y : old y -> (forall p, In p (parents h y) -> ~ has_op start p) -> named_into y = map (fun p => (p, O)) (parents h y).
Proof.
  intros O H. unfold named_into. assert (G : forall l, (forall p, In p l -> In p (parents h y)) -> flat_map (fun x => map (pair x) (delivered h x y)) l = map (fun p => (p, 0%nat)) l); [|apply G; auto].
  induction l as [|p l IH]; intros R; [reflexivity|]. cbn [flat_map map]. rewrite idle_delivers; [|apply (st_par y p O), R; left; reflexivity|apply H, R; left; reflexivity]. cbn [map app]. f_equal. apply IH. intros q J. apply R. right. exact J.
Qed.
Lemma many_idle y p : old y -> (1 < length (parents h y))%nat -> In p (parents h y) -> ~ has_op start p.
Proof.
  intros O L I Hp. pose proof (st_par y p O I) as Op. rewrite (st_alone p y Op (st_has p Op Hp)) in L; [cbn in L; lia|]. apply (st_links p y Op O), I.
Qed.
Lemma st_fair x u : old x -> In u (n_expands (get start x)) -> op_fair start x u.
Proof.
  intros O I. rewrite st_tags in I by exact O. destruct (is_op u) eqn:Ou; [|destruct u; try discriminate; exact Logic.I]. destruct (st_op x u O I Ou) as (L & E & S).
  destruct u as [c|d|k|s]; try discriminate; cbn [op_fair]; [exact Logic.I| |].
  - remember [TDivide d] as own eqn:Eo. destruct S as [c _ _ _|d' q Hd Ev Es|c q _ _ _ _]; [destruct (zmem c _); discriminate| |discriminate].
    destruct (3 <? d'); [|discriminate]. injection Eo as ->. intros c J. rewrite st_kids in J by exact O. rewrite !st_val by (try exact O; apply (st_kid x c O J)).
    assert (Vy : value h c = q) by (apply (repeat_spec (Z.to_nat d)); rewrite <- Es; apply in_map, J). rewrite Vy, Ev, foz_mult. field. apply foz_neq0. lia.
  - remember [TSplit s] as own eqn:Eo. destruct S as [c _ _ _|d' q Hd Ev Es|c q Ic Ec Hq Pm]; [destruct (zmem c _); discriminate|destruct (3 <? d'); discriminate|]. injection Eo as ->. split; [exact Ic|].
    assert (X : exists y z o, Permutation (children h x) [y; z; o] /\ value h y = q /\ value h z = q /\ value h o = value h x - 2 * q).
    { apply Permutation_sym in Pm. destruct (Permutation_map_inv _ _ Pm) as (l & El & Pl). destruct l as [|y [|z [|o [|w l]]]]; try discriminate. injection El as E1 E2 E3. exists y, z, o. split; [exact Pl|]. auto. }
    destruct X as (y & z & o & Px & Vy & Vz & Vo). exists y, z, o. pose proof (Permutation_NoDup Px (proj1 (st_simple x O))) as ND.
    assert (K : forall k, In k [y; z; o] -> val start k = frac_of_Z (value h k)) by (intros k J; apply st_val, (st_kid x k O), (Permutation_in _ (Permutation_sym Px) J)).
    rewrite st_kids by exact O. rewrite (K y), (K z), (K o) by (cbn; auto). rewrite st_val by exact O. rewrite Vy, Vz, Vo. assert (Es : (frac_of_Z s / frac_of_Z 3)%Qc = frac_of_Z q) by (rewrite Ec, foz_mult; field; apply foz_neq0; lia). rewrite Es.
    split; [exact Px|]. split; [exact ND|]. split; [reflexivity|]. split; [reflexivity|]. split; [rewrite <- !foz_plus; f_equal; ring|]. intros X. apply foz_inj in X. lia.
Qed.

Hypothesis Ov : forall a, in_tree h t a -> ~ overloaded h a.
Hypothesis Nt : forall a, in_tree h t a -> ~ torn h a.
Lemma network_flow : exists M h' seen, (forall n, (M <= n)%nat -> expand_roots n start (t_roots t) = Ok h') /\ flowing start part (t_roots t) named_pend all_machines (fun x => ~ In x seen) h' /\ names start part named_into seen h' /\ (forall x, old x -> n_value (get h' x) = val start x).
Proof.
  apply (all_flow start part (t_roots t) named_pend all_machines) with (Lo := named_back) (grow := named_grow).
  - intros x B. right. exact B.
  - intros x O. apply (H_level h t g Lv Same), old_in, O.
  - exact val_pos.
  - intros x O. apply Qclt_le_weak, val_pos, O.
  - intros x c O I. rewrite st_kids in I by exact O. apply (st_kid x c O I).
  - intros x c O I. rewrite st_pars in I by exact O. apply (st_par x c O I).
  - intros x c O1 O2. rewrite st_kids, st_pars by assumption. apply st_links; assumption.
  - intros x u O. apply (network_ready h t vals g N Tg Same); [|apply Ov]; apply old_in, O.
  - intros x O. rewrite st_tags by exact O. apply one_op, Tg, old_in, O.
  - intros x u c O I Ou J. rewrite st_tags in I by exact O. rewrite st_kids in J by exact O. rewrite st_pars by (apply (st_kid x c O J)). apply (st_alone x c O); [apply (st_op x u O I Ou)|exact J].
  - intros r I. apply old_in. exists r. split; [exact I|constructor].
  - intros x O. rewrite st_pars by exact O. apply (net_top _ _ _ N x), old_in, O.
  - exact st_fair.
  - reflexivity.
  - exact st_named.
  - intros y O L. rewrite st_pars in L by exact O. rewrite idle_into by (first [exact O|intros p I; apply (many_idle y p O); [lia|exact I]]). apply FinFun.Injective_map_NoDup; [intros a b X; injection X; auto|apply (st_simple y O)].
  - intros y O b I J. apply (Nt y (proj1 (old_in y) O)). exists b. rewrite st_pars in I, J by exact O. split; [exact I|exact J].
  - intros x O. destruct (st_own x O) as (own & E & F & _). exists own. rewrite st_tags, st_pars by exact O. split; [exact E|]. destruct F as [->|F]; [left; split; [reflexivity|exact (back_own x [] E)]|right; exact F].
  - exact start_flow.
  - intros y O H. rewrite st_pars in * by exact O. exists (fun p => (p, 0%nat)). symmetry. apply idle_into; assumption.
Qed.
End Start.
