(** What expanding an operation does to the lists of the nodes. *)
From Verif Require Import Base BaseLemmas Cost CostSpec CostProofs Utils Fractions FractionsProofs Load Tree TreeSpec HeapLemmas Expand ExpandSpec BranchProofs LevelProofs BuildProofs
  ExpandProofs ExtractProofs FrameProofs MergeProofs SplitProofs LocalProofs MergeSafe TraverseSafe FlowSpec FlowProofs FlowMerge FlowTree FlowOps CoverWalk CoverOps.
From Coq Require Import QArith Qcanon.
Open Scope Z_scope.

Definition before (c f : nat) (l : list nat) : Prop := exists l1 l2, l = l1 ++ c :: l2 /\ In f l2.
Record grown (h : heap Qc) (a : nat) (cs : list nat) (h' : heap Qc) : Prop := {
  gr_loc : loc h a cs h';
  gr_loops : exists loops, pars h' a = pars h a ++ loops /\ forall p, In p loops -> (length h <= p < length h')%nat;
  gr_tags : exists extra, n_expands (get h' a) = n_expands (get h a) ++ extra /\ Forall (eq (TMerge (Z.of_nat (cap_of h a)))) extra;
  gr_kid_tags : forall c, In c cs -> exists extra, n_expands (get h' c) = n_expands (get h c) ++ extra /\ Forall (eq (TMerge 3)) extra;
  gr_new : forall y, (length h <= y < length h')%nat -> exists q, (q = a \/ (length h <= q < y)%nat) /\ pars h' y = [q] /\ In y (kids h' q);
  gr_some : forall c, In c cs -> pars h' c <> [];
  gr_back : forall c p, In c cs -> In p (pars h' c) -> inner h a h' p /\ In c (kids h' p);
  gr_pair : forall p c f, inner h a h' p -> before c f (kids h' p) -> c <> f -> In c cs -> pars h' c = [p] \/
    (length cs = 2%nat /\ In f cs /\ ((exists q, In q (pars h' f) /\ q <> p) \/ (2 <= cnt f (kids h' p))%nat))
}.

(** a splitter tree *)
Section Tree.
Variables (h h' : heap Qc) (a : nat) (cs : list nat).
Variables (n m : nat) (fams : nat -> list (nat * Z)) (N : nat -> Z) (Fl : Qc) (lvl lta : Z) (bottom : list nat) (hs hb : heap Qc).
Hypothesis Ba : (a < length h)%nat.
Hypothesis Na : ~ In a cs.
Hypothesis Bcs : forall c, In c cs -> (c < length h)%nat.
Hypothesis HK : (0 < n + m)%nat.
Hypothesis Ls : length hs = length h.
Hypothesis Hbot : incl bottom cs.
Hypothesis Hfams : forall k t c, In (t, c) (fams k) -> t = a \/ In t cs.
Hypothesis Bt : built n (n + m) fams N (fun k => (Fl / frac_of_Z (slots n k))%Qc) lvl lta bottom hs a (n + m) hb.
Hypothesis Lb : length h' = length hb.
Hypothesis Kb : forall x, kids h' x = kids hb x.
Hypothesis Pb : forall x, pars h' x = pars hb x.
Hypothesis Ka : kids hs a = [].
Hypothesis Pa : pars hs a = pars h a.
Hypothesis Pc : forall c, In c cs -> ~ In c bottom -> pars hs c = [].
Hypothesis First : cnt a (loops_of (fams 1)) = O.
Lemma tc_bounds : (a < length hs)%nat /\ (forall x, In x bottom -> (x < length hs)%nat) /\ ~ In a bottom /\ (forall k t c, In (t, c) (fams k) -> (t < length hs)%nat).
Proof.
  rewrite Ls. split; [exact Ba|]. split; [intros x I; apply Bcs, Hbot, I|]. split; [intros I; apply Na, Hbot, I|]. intros k t c I. destruct (Hfams k t c I) as [->|J]; [exact Ba|apply Bcs, J].
Qed.
Lemma tc_linked p c : inner h a h' p -> In c cs \/ (length h <= c)%nat -> cnt c (kids h' p) = cnt p (pars h' c).
Proof.
  intros Ip Ic. rewrite Kb, Pb. apply (tr_linked _ _ _ _ _ _ _ _ _ _ _ Bt (fun x y => (x = a \/ (length hs <= x)%nat) /\ (In y cs \/ (length hs <= y)%nat))).
  - intros x y [Hx Hy]. assert (K0 : kids hs x = []) by (destruct Hx as [->|Hx]; [exact Ka|rewrite get_beyond by exact Hx; reflexivity]). rewrite K0. cbn [count_occ].
    destruct (in_dec Nat.eq_dec y bottom) as [I|I]; [reflexivity|]. destruct Hy as [Hy|Hy]; [rewrite (Pc y Hy I); reflexivity|]. rewrite (get_beyond hs y) by exact Hy. reflexivity.
  - rewrite Ls. split; [|exact Ic]. destruct Ip as [->|Ip]; [auto|right; lia].
Qed.
Lemma tc_loops : exists loops, pars h' a = pars h a ++ loops /\ forall p, In p loops -> (length h <= p < length h')%nat.
Proof.
  destruct tc_bounds as (B1 & B2 & B3 & B4). destruct (tr_extra _ _ _ _ _ _ _ _ _ _ _ HK B1 B2 B3 B4 Bt a B1 B3) as (ns & En & Hn & _). exists ns. split; [rewrite Pb, En, Pa; reflexivity|].
  intros p I. destruct (Hn p I) as (i & Hi & J & X). destruct i as [|i]; [apply cnt_in in X; rewrite First in X; lia|]. rewrite <- Ls, Lb. apply (tr_new _ _ _ _ _ _ _ _ _ _ _ HK B1 B2 B4 Bt (S i)); [lia|exact J].
Qed.
Lemma tc_new y : (length h <= y < length h')%nat -> exists q, (q = a \/ (length h <= q < y)%nat) /\ pars h' y = [q] /\ In y (kids h' q).
Proof.
  intros Hy. destruct tc_bounds as (B1 & B2 & B3 & B4). rewrite <- Ls, Lb in Hy. destruct (tr_mid _ _ _ _ _ _ _ _ _ _ _ HK B1 B2 B4 Bt y (or_intror Hy)) as (i & Hi & J). destruct i as [|i]; [destruct J as [J|[]]; lia|].
  destruct (tr_parent _ _ _ _ _ _ _ _ _ _ _ HK B1 B2 B3 B4 Bt i y ltac:(lia) J) as (p & Ip & E & _). exists p.
  assert (X : p = a \/ (length h <= p < y)%nat).
  { destruct i as [|i]; [left; destruct Ip as [<-|[]]; reflexivity|right]. rewrite <- Ls. pose proof (tr_new _ _ _ _ _ _ _ _ _ _ _ HK B1 B2 B4 Bt (S i) p ltac:(lia) Ip) as X. split; [apply X|].
    rewrite lv_mid in Ip, J by lia. apply in_seq in Ip. apply in_seq in J. rewrite start_SS in J by lia. lia. }
  split; [exact X|]. split; [rewrite Pb; exact E|]. apply cnt_in. rewrite tc_linked; [rewrite Pb, E; cbn; destruct (Nat.eq_dec p p); [lia|congruence]| |right; lia].
  destruct X as [->|X]; [left; reflexivity|right; lia].
Qed.
Lemma tc_inner c p : In c cs -> In p (pars h' c) -> inner h a h' p.
Proof.
  intros Ic Ip. destruct tc_bounds as (B1 & B2 & B3 & B4). rewrite Pb in Ip. unfold inner. rewrite <- Ls, Lb. destruct (in_dec Nat.eq_dec c bottom) as [I|I].
  - destruct (tr_bottom _ _ _ _ _ _ _ _ _ _ _ HK B1 B2 B3 B4 Bt c I) as (q & Hq & E & _). rewrite E in Ip. destruct Ip as [<-|[]]. exact Hq.
  - assert (Bc : (c < length hs)%nat) by (rewrite Ls; apply Bcs, Ic). destruct (tr_extra _ _ _ _ _ _ _ _ _ _ _ HK B1 B2 B3 B4 Bt c Bc I) as (ns & En & Hn & _). rewrite En, (Pc c Ic I) in Ip. cbn [app] in Ip.
    destruct (Hn p Ip) as (i & Hi & J & _). apply (tr_inner _ _ _ _ _ _ _ _ _ _ _ HK B1 B2 B4 Bt i p Hi J).
Qed.
Lemma tc_back c p : In c cs -> In p (pars h' c) -> inner h a h' p /\ In c (kids h' p).
Proof.
  intros Ic Ip. pose proof (tc_inner c p Ic Ip) as X. split; [exact X|]. apply cnt_in. rewrite (tc_linked p c X) by auto. apply cnt_in in Ip. exact Ip.
Qed.
Lemma tc_bottom c : In c bottom -> exists p, pars h' c = [p] /\ forall q, inner h a h' q -> In c (kids h' q) -> q = p.
Proof.
  intros I. destruct tc_bounds as (B1 & B2 & B3 & B4). destruct (tr_bottom _ _ _ _ _ _ _ _ _ _ _ HK B1 B2 B3 B4 Bt c I) as (p & Hp & E & _). exists p. split; [rewrite Pb; exact E|].
  intros q Hq J. apply cnt_in in J. rewrite (tc_linked q c Hq) in J by (left; apply Hbot, I). rewrite Pb, E in J. cbn in J. destruct (Nat.eq_dec p q); [congruence|lia].
Qed.
(** the parents of a node led to by loops lie on the levels of these *)
Lemma tc_levels c : In c cs -> ~ In c bottom -> exists lev : nat -> nat, map lev (pars h' c) = flat_map (fun i => repeat i (cnt c (loops_of (fams i)))) (seq 1 (n + m)) /\
  forall p, inner h a h' p -> (0 < lev p <= n + m)%nat /\ forall y, In y cs -> ~ In y bottom -> In y (kids h' p) -> In y (loops_of (fams (lev p))).
Proof.
  intros Ic Nc. destruct tc_bounds as (B1 & B2 & B3 & B4). assert (Bc : (c < length hs)%nat) by (rewrite Ls; apply Bcs, Ic).
  destruct (tr_extra _ _ _ _ _ _ _ _ _ _ _ HK B1 B2 B3 B4 Bt c Bc Nc) as (ns & En & Hn & _ & Em). exists (fun p => S (tr_level n m N bottom hs a p)). split; [rewrite Pb, En, (Pc c Ic Nc); exact Em|].
  intros p Hp. unfold inner in Hp. rewrite <- Ls, Lb in Hp. destruct (tr_mid _ _ _ _ _ _ _ _ _ _ _ HK B1 B2 B4 Bt p Hp) as (i & Hi & J). rewrite (tr_level_at n m fams N lvl bottom hs a HK B1 B2 B3 B4 i p Hi J). split; [lia|].
  intros y Iy Ny K. rewrite Kb in K. destruct (tr_kid _ _ _ _ _ _ _ _ _ _ _ Bt i p y Hi J K) as [X|X]; [exact X|exfalso].
  destruct (Nat.eq_dec (S i) (n + m)) as [E|E]; [rewrite E, lv_K in X by exact HK; contradiction|]. rewrite lv_mid in X by lia. apply in_seq in X. pose proof (start_ge N hs (S i)). specialize (Bcs y Iy). lia.
Qed.
End Tree.

Lemma divide_grown h a d lvl : divisible h a d lvl -> (forall c, In c (kids h a) -> (c < length h)%nat) -> 2 <= d ->
  (forall n m l s, find_n_m_l d = Ok (n, m, l, s) -> (n_value (get h a) + frac_of_Z l * n_value (get h a) / frac_of_Z d <= frac_of_Z conveyor_speed_limit)%Qc) ->
  exists h' u, expand_divide h a d = Ok (h', u) /\ grown h a (kids h a) h'.
Proof.
  intros DV KB Hd Lim. pose proof DV as DV'. destruct DV'.
  destruct (divide_safe_built h a d lvl DV KB Hd Lim) as (n & m & l & s & h' & hb & u & E & L & Hf & Eh & Bt).
  exists h', u. split; [exact E|].
  destruct (find_n_m_l_positive d n m l s Hd Hf) as (Hl & HW & Hnm & _). pose proof (loops_small d n m l s Hd Hf) as Sm.
  set (cs := kids h a) in *. set (hs := upd a (set_children []) h) in *. set (Fl := (n_value (get h a) + frac_of_Z l * n_value (get h a) / frac_of_Z d)%Qc) in *.
  assert (Ls : length hs = length h) by (unfold hs; apply upd_length).
  assert (Bb : (a < length hb)%nat) by (pose proof (tr_grow _ _ _ _ _ _ _ _ _ _ _ Bt) as X; lia).
  assert (Lb : length h' = length hb) by (rewrite Eh; apply tag_merge_length).
  assert (Kb : forall x, kids h' x = kids hb x) by (intros x; rewrite Eh; apply tag_merge_fields, Bb).
  assert (Pb : forall x, pars h' x = pars hb x) by (intros x; rewrite Eh; apply tag_merge_fields, Bb).
  assert (Ks : kids hs a = []) by (unfold hs; rewrite get_upd_same by exact dv_node; reflexivity).
  assert (Ps : forall x, pars hs x = pars h x) by (intros x; unfold hs; destruct (Nat.eq_dec a x) as [<-|N]; [rewrite get_upd_same by exact dv_node|rewrite get_upd_other by exact N]; reflexivity).
  assert (Ts : forall x, n_expands (get hs x) = n_expands (get h x)) by (intros x; unfold hs; destruct (Nat.eq_dec a x) as [<-|N]; [rewrite get_upd_same by exact dv_node|rewrite get_upd_other by exact N]; reflexivity).
  assert (HF : forall k t c, In (t, c) (divide_fams n m l a a k) -> t = a \/ In t cs) by (intros k t c [X|[]]; left; injection X as <- _; destruct (k <=? n)%nat; reflexivity).
  assert (First : cnt a (loops_of (divide_fams n m l a a 1)) = O) by (pose proof (divide_loops_cnt n m l a 1 Hl ltac:(lia)) as X; rewrite cut_first in X by lia; lia).
  assert (RT : forall x, (x < length h)%nat -> n_expands (get hb x) = n_expands (get h x)).
  { intros x Bx. destruct (b_rest _ _ _ _ _ _ _ _ _ _ _ _ Bt x ltac:(lia)) as ((_ & _ & _ & _ & X & _) & _). rewrite X. apply Ts. }
  assert (Pc : forall c, In c cs -> ~ In c cs -> pars hs c = []) by (intros; contradiction).
  assert (TB : forall c, In c cs -> exists p, pars h' c = [p] /\ forall q, inner h a h' q -> In c (kids h' q) -> q = p).
  { intros c I. apply (tc_bottom h h' a cs n m (divide_fams n m l a a) (n_at n m l) Fl lvl (- Z.of_nat (n + m)) cs hs hb); try assumption. apply incl_refl. }
  constructor.
  - exact L.
  - apply (tc_loops h h' a cs n m (divide_fams n m l a a) (n_at n m l) Fl lvl (- Z.of_nat (n + m)) cs hs hb); try assumption; [apply incl_refl|apply Ps].
  - rewrite cap_Z in Eh. destruct (tag_merge_tags (cap_of h a) hb a Bb) as (ex & E1 & E2 & E3). exists ex. rewrite Eh at 1. rewrite E1, (RT a dv_node). auto.
  - intros c I. exists []. rewrite app_nil_r. split; [|constructor]. rewrite Eh, tag_merge_get by exact Bb. rewrite (proj2 (Nat.eqb_neq a c)) by (intros ->; contradiction). cbn [andb]. apply RT, KB, I.
  - intros y Hy. apply (tc_new h h' a cs n m (divide_fams n m l a a) (n_at n m l) Fl lvl (- Z.of_nat (n + m)) cs hs hb); try assumption. apply incl_refl.
  - intros c I. destruct (TB c I) as (p & -> & _). discriminate.
  - intros c p. apply (tc_back h h' a cs n m (divide_fams n m l a a) (n_at n m l) Fl lvl (- Z.of_nat (n + m)) cs hs hb); try assumption. apply incl_refl.
  - intros p c f Hp (l1 & l2 & El & _) _ I. left. destruct (TB c I) as (q & -> & U). f_equal. symmetry. apply U; [exact Hp|]. rewrite El. apply in_or_app. right. left. reflexivity.
Qed.

(** ** Extractions *)
Lemma cut_some n m q k : 0 <= q -> (0 < k <= n + m)%nat -> 0 < cut_at n m q k -> under n m k <= q.
Proof.
  intros Hq Hk H. pose proof (under_pos n m k). destruct (Z.lt_ge_cases q (under n m k)) as [X|X]; [|exact X]. destruct k as [|k]; [lia|]. cbn [cut_at] in H. rewrite (Z.div_small q (under n m (S k))) in H by lia.
  pose proof (under_pos n m k). pose proof (radix_pos n (S k)). assert (0 <= q / under n m k) by (apply Z.div_pos; lia). nia.
Qed.
Lemma cut_once n m q k : 0 <= q < 2 ^ Z.of_nat n * 3 ^ Z.of_nat m -> flat_map (fun i => repeat i (Z.to_nat (cut_at n m q i))) (seq 1 (n + m)) = [k] -> (0 < k <= n + m)%nat /\ q = under n m k.
Proof.
  intros Hq E. pose proof (cut_total n m q (n + m) ltac:(lia) Hq) as T. rewrite under_bottom, Z.div_1_r, Z.mul_1_r in T.
  assert (I : In k (flat_map (fun i => repeat i (Z.to_nat (cut_at n m q i))) (seq 1 (n + m)))) by (rewrite E; left; reflexivity). apply in_flat_map in I. destruct I as (j & Ij & J). apply in_seq in Ij. pose proof (repeat_spec _ _ _ J) as ->. split; [lia|].
  clear J. revert T E. assert (R : forall i, In i (seq 1 (n + m)) -> (0 < i <= n + m)%nat) by (intros i I; apply in_seq in I; lia). revert R. generalize (seq 1 (n + m)). intros ks R T E. clear Ij. rewrite <- T. clear T. revert j E. induction ks as [|i ks IH]; intros k E; [discriminate|]. cbn [flat_map] in E. cbn [map]. rewrite zsum_cons.
  pose proof (R i (or_introl eq_refl)) as Ri. destruct (cut_bounds n m q i ltac:(lia) ltac:(lia)) as [C0 _].
  assert (Z0 : forall js, (forall i, In i js -> (0 < i <= n + m)%nat) -> flat_map (fun i => repeat i (Z.to_nat (cut_at n m q i))) js = [] -> zsum (map (fun k => cut_at n m q k * under n m k) js) = 0).
  { induction js as [|j js IHj]; intros Rj Ej; [reflexivity|]. cbn [flat_map] in Ej. apply app_eq_nil in Ej. destruct Ej as [E1 E2]. cbn [map]. rewrite zsum_cons, IHj by (auto; intros i' I'; apply Rj; right; exact I').
    pose proof (Rj j (or_introl eq_refl)). destruct (cut_bounds n m q j ltac:(lia) ltac:(lia)) as [C1 _]. apply (f_equal (@length nat)) in E1. rewrite repeat_length in E1. cbn in E1. assert (cut_at n m q j = 0) as -> by lia. lia. }
  destruct (Z.to_nat (cut_at n m q i)) as [|c] eqn:Ec.
  - cbn [repeat app] in E. assert (cut_at n m q i = 0) as -> by lia. rewrite (IH ltac:(intros j I; apply R; right; exact I) k E). lia.
  - cbn [repeat app] in E. injection E as -> E. apply app_eq_nil in E. destruct E as [E1 E2]. rewrite (Z0 ks) by (auto; intros j I; apply R; right; exact I). apply (f_equal (@length nat)) in E1. rewrite repeat_length in E1. cbn in E1. assert (cut_at n m q k = 1) as -> by lia. lia.
Qed.
Lemma two_before ext ovf l c f : ext <> ovf -> two ext ovf l -> before c f l -> c <> f -> c = ext \/ c = ovf -> c = ext /\ f = ovf.
Proof.
  intros N (A & i & j & -> & PA1 & PA2) (l1 & l2 & E & I) Ncf Hc.
  assert (NC : ~ In c A) by (destruct Hc as [->| ->]; assumption).
  assert (X : exists l1', repeat ext i ++ repeat ovf j = l1' ++ c :: l2).
  { revert l1 E NC. clear. induction A as [|x A IH]; intros l1 E NC; [exists l1; exact E|]. destruct l1 as [|y l1]; cbn [app] in E; injection E as -> E; [exfalso; apply NC; left; reflexivity|].
    apply (IH l1 E). intros I. apply NC. right. exact I. }
  destruct X as (l1' & X). clear E NC. revert l1' X. induction i as [|i IH]; intros l1' X; cbn [repeat app] in X.
  - assert (AllO : forall z, In z (l1' ++ c :: l2) -> z = ovf) by (intros z Iz; rewrite <- X in Iz; apply repeat_spec in Iz; exact Iz). exfalso. apply Ncf. rewrite (AllO c), (AllO f); [reflexivity| |]; apply in_or_app; right; [right; exact I|left; reflexivity].
  - destruct l1' as [|y l1']; cbn [app] in X; injection X as E1 X; [|apply (IH l1' X)]. split; [congruence|]. rewrite <- X in I. apply in_app_or in I. destruct I as [I|I]; apply repeat_spec in I; [congruence|exact I].
Qed.

Lemma extract_grown h a x c lvl ext ovf : extractable h a x c lvl ext ovf -> (ext < length h)%nat -> (ovf < length h)%nat -> 3 <= x -> 0 < c < x -> 2 * c < x ->
  (forall n m l s, find_n_m_l (x / Z.gcd x (x - c)) = Ok (n, m, l, s) -> x + l * Z.gcd x (x - c) <= conveyor_speed_limit) ->
  exists h' u, expand_extract h a c = Ok (h', u) /\ grown h a (kids h a) h'.
Proof.
  intros EX Be Bo Hv Hc Half Lim. pose proof EX as EX'. destruct EX'. destruct ex_distinct as (Ne & Nea & Noa). destruct ex_parents as (Pe0 & Po0).
  pose proof (extract_kids _ _ _ _ _ _ _ EX) as KI.
  destruct (extract_safe_built h a x c lvl ext ovf EX Be Bo Hv Hc Lim) as (n & m & l & s & h' & hb & u & E & L & HH). cbn zeta in HH.
  pose proof (extract_parts x c Hv Hc) as HP. cbn zeta in HP.
  set (g := Z.gcd x (x - c)) in *. set (d := x / g) in *. set (e := c * d / x) in *. destruct HP as (Hd & He & Exd & Ece). destruct HH as (Hf & Eh & Bt & Run).
  exists h', u. split; [exact E|].
  destruct (find_n_m_l_positive d n m l s ltac:(lia) Hf) as (Hl & HW & Hnm & _). pose proof (loops_small d n m l s ltac:(lia) Hf) as Sm.
  assert (Hg : 0 < g) by (destruct (Z.lt_trichotomy g 0) as [X|[X|X]]; [|rewrite X in Exd; lia|exact X]; pose proof (Z.gcd_nonneg x (x - c)) as Y; fold g in Y; lia).
  assert (Big : e < d - e) by (clear - Exd Ece Half Hg; nia).
  set (Fl := frac_of_Z (x + l * g)) in *. set (cs := kids h a) in *. set (hs := cleared h a ext ovf) in *.
  assert (Gs : forall y, get hs y = if (y =? a)%nat then set_children [] (get h y) else if (y =? ext)%nat || (y =? ovf)%nat then set_parents [] (get h y) else get h y) by (intros y; apply cleared_get; assumption).
  assert (Ls : length hs = length h) by apply cleared_length.
  pose proof (tr_grow _ _ _ _ _ _ _ _ _ _ _ Bt) as Gr.
  assert (Bb : (a < length hb)%nat /\ (ext < length hb)%nat /\ (ovf < length hb)%nat) by (clear - Gr Ls ex_node Be Bo; lia). destruct Bb as (Bba & Bbe & Bbo).
  assert (Lb : length h' = length hb) by (rewrite Eh; apply tags3_length).
  assert (Kb : forall y, kids h' y = kids hb y) by (intros y; rewrite Eh; apply tags3_fields; assumption).
  assert (Pb : forall y, pars h' y = pars hb y) by (intros y; rewrite Eh; apply tags3_fields; assumption).
  assert (Ks : kids hs a = []) by (rewrite Gs, Nat.eqb_refl; reflexivity).
  assert (Ps : pars hs a = pars h a) by (rewrite Gs, Nat.eqb_refl; reflexivity).
  assert (Pc : forall y, In y cs -> ~ In y [] -> pars hs y = []).
  { intros y I _. apply KI in I. rewrite Gs, (proj2 (Nat.eqb_neq y a)) by (destruct I as [->| ->]; assumption). replace ((y =? ext)%nat || (y =? ovf)%nat) with true by (destruct I as [->| ->]; rewrite Nat.eqb_refl, ?orb_true_r; reflexivity). reflexivity. }
  assert (Ts : forall y, n_expands (get hs y) = n_expands (get h y)) by (intros y; rewrite Gs; destruct (y =? a)%nat; [reflexivity|]; destruct (_ || _)%bool; reflexivity).
  set (fams := extract_fams n m l e (d - e) a ext ovf) in *.
  assert (LC : forall k, (0 < k <= n + m)%nat -> Z.of_nat (cnt a (loops_of (fams k))) = cut_at n m l k /\ Z.of_nat (cnt ext (loops_of (fams k))) = cut_at n m e k /\ Z.of_nat (cnt ovf (loops_of (fams k))) = cut_at n m (d - e) k).
  { intros k Hk. destruct (extract_loops_cnt n m l e (d - e) a ext ovf k) as (X1 & X2 & X3 & _); try lia; try congruence. auto. }
  assert (HF : forall k t c, In (t, c) (fams k) -> t = a \/ In t cs) by (intros k t c0 [X|[X|[X|[]]]]; injection X as <- _; [left; reflexivity|right; apply KI; auto|right; apply KI; auto]).
  assert (First : cnt a (loops_of (fams 1%nat)) = O) by (destruct (LC 1%nat ltac:(lia)) as (X & _); rewrite cut_first in X by lia; lia).
  assert (RT : forall y, (y < length h)%nat -> n_expands (get hb y) = n_expands (get h y)).
  { intros y By. destruct (b_rest _ _ _ _ _ _ _ _ _ _ _ _ Bt y ltac:(lia)) as ((_ & _ & _ & _ & X & _) & _). rewrite X. apply Ts. }
  assert (Gt : forall y, get h' y = let mark k := if k <? Z.of_nat (length (pars hb y)) then add_tag (TMerge k) (get hb y) else get hb y in
    if (y =? a)%nat then mark (Z.of_nat (cap_of h a)) else if (y =? ext)%nat || (y =? ovf)%nat then mark 3 else get hb y) by (intros y; rewrite Eh, cap_Z; apply tags3_get; congruence).
  assert (Na : ~ In a cs) by (intros I; apply KI in I; destruct I; congruence).
  assert (KB : forall y, In y cs -> (y < length h)%nat) by (intros y I; apply KI in I; destruct I as [->| ->]; assumption).
  assert (Ib : incl [] cs) by (intros y []).
  assert (Ix : In ext cs) by (apply KI; auto). assert (Io : In ovf cs) by (apply KI; auto).
  assert (Lk : forall p y, inner h a h' p -> In y cs \/ (length h <= y)%nat -> cnt y (kids h' p) = cnt p (pars h' y)).
  { intros p y. apply (tc_linked h h' a cs n m fams (n3_at n m l e (d - e)) Fl lvl (- Z.of_nat (n + m)) [] hs hb); assumption. }
  assert (LV : forall y q, In y cs -> (forall k, (0 < k <= n + m)%nat -> Z.of_nat (cnt y (loops_of (fams k))) = cut_at n m q k) -> exists lev : nat -> nat, map lev (pars h' y) = flat_map (fun i => repeat i (Z.to_nat (cut_at n m q i))) (seq 1 (n + m)) /\
    forall p, inner h a h' p -> (0 < lev p <= n + m)%nat /\ forall z, In z cs -> In z (kids h' p) -> In z (loops_of (fams (lev p)))).
  { intros y q I Cq. destruct (tc_levels h h' a cs n m fams (n3_at n m l e (d - e)) Fl lvl (- Z.of_nat (n + m)) [] hs hb ex_node Na KB Hnm Ls Ib HF Bt Lb Kb Pb Pc First y I ltac:(intros [])) as (lev & E1 & E2).
    exists lev. split; [|intros p Hp; destruct (E2 p Hp) as [X1 X2]; split; [exact X1|intros z Iz; apply X2; [exact Iz|intros []]]]. rewrite E1. clear - Cq.
    assert (G : forall ks, (forall k, In k ks -> (0 < k <= n + m)%nat) -> flat_map (fun i => repeat i (cnt y (loops_of (fams i)))) ks = flat_map (fun i => repeat i (Z.to_nat (cut_at n m q i))) ks).
    { induction ks as [|k ks IH]; intros R; [reflexivity|]. cbn [flat_map]. rewrite IH by (intros j J; apply R; right; exact J). f_equal. f_equal. rewrite <- (Cq k) by (apply R; left; reflexivity). lia. }
    apply G. intros k I. apply in_seq in I. lia. }
  assert (Some_ : forall y q, In y cs -> 0 < q -> q < 2 ^ Z.of_nat n * 3 ^ Z.of_nat m -> (forall k, (0 < k <= n + m)%nat -> Z.of_nat (cnt y (loops_of (fams k))) = cut_at n m q k) -> pars h' y <> []).
  { intros y q I Q1 Q2 Cq X. destruct (LV y q I Cq) as (lev & E1 & _). rewrite X in E1. cbn [map] in E1. pose proof (cut_total n m q (n + m) ltac:(lia) ltac:(lia)) as T. rewrite under_bottom, Z.div_1_r, Z.mul_1_r in T.
    assert (Z0 : forall ks, (forall i, In i ks -> (0 < i <= n + m)%nat) -> [] = flat_map (fun i => repeat i (Z.to_nat (cut_at n m q i))) ks -> zsum (map (fun k => cut_at n m q k * under n m k) ks) = 0).
    { induction ks as [|j ks IHj]; intros Rj Ej; [reflexivity|]. cbn [flat_map] in Ej. symmetry in Ej. apply app_eq_nil in Ej. destruct Ej as [E2 E3]. cbn [map]. rewrite zsum_cons, IHj by (auto; intros i' I'; apply Rj; right; exact I').
      pose proof (Rj j (or_introl eq_refl)). destruct (cut_bounds n m q j ltac:(lia) ltac:(lia)) as [C1 _]. apply (f_equal (@length nat)) in E2. rewrite repeat_length in E2. cbn in E2. assert (cut_at n m q j = 0) as -> by lia. lia. }
    rewrite Z0 in T; [lia| |exact E1]. intros i J. apply in_seq in J. lia. }
  assert (Ord : forall p, inner h a h' p -> two ext ovf (kids h' p)).
  { intros p Hp. rewrite Kb. apply (tree_order ext ovf (length h) a Be Bo Nea Noa n (n + m) (cut_at n m l) (cut_at n m e) (cut_at n m (d - e)) (n3_at n m l e (d - e)) (fun k => (Fl / frac_of_Z (slots n k))%Qc) lvl (- Z.of_nat (n + m)) cs hs hb cs Hnm); [|exact Run|].
    - split; [cbn [fst]; lia|]. assert (X : forall q, mid (length h) a q -> kids hs q = []) by (intros q [->|Hq]; [exact Ks|rewrite get_beyond by lia; reflexivity]). cbn [fst snd]. split.
      + intros q Hq. rewrite (X q Hq). exists [], O, O. split; [reflexivity|apply pure_nil].
      + intros q [<-|[]]. split; [lia|]. rewrite Ks. apply pure_nil.
    - destruct Hp as [->|Hp]; [left; reflexivity|right; lia]. }
  constructor.
  - exact L.
  - apply (tc_loops h h' a cs n m fams (n3_at n m l e (d - e)) Fl lvl (- Z.of_nat (n + m)) [] hs hb); assumption.
  - rewrite (Gt a), Nat.eqb_refl. cbn beta zeta. match goal with |- context [if ?b then _ else _] => destruct b end.
    + exists [TMerge (Z.of_nat (cap_of h a))]. unfold add_tag, set_expands. cbn [n_expands]. rewrite (RT a ex_node). split; [reflexivity|repeat constructor].
    + exists []. rewrite (RT a ex_node), app_nil_r. split; [reflexivity|constructor].
  - intros y I. assert (Nya : y <> a) by (intros ->; contradiction). rewrite (Gt y), (proj2 (Nat.eqb_neq y a)) by exact Nya. apply KI in I. replace ((y =? ext)%nat || (y =? ovf)%nat) with true by (destruct I as [->| ->]; rewrite Nat.eqb_refl, ?orb_true_r; reflexivity). cbn beta zeta.
    assert (By : (y < length h)%nat) by (destruct I as [->| ->]; assumption). match goal with |- context [if ?b then _ else _] => destruct b end.
    + exists [TMerge 3]. unfold add_tag, set_expands. cbn [n_expands]. rewrite (RT y By). split; [reflexivity|repeat constructor].
    + exists []. rewrite (RT y By), app_nil_r. split; [reflexivity|constructor].
  - intros y Hy. apply (tc_new h h' a cs n m fams (n3_at n m l e (d - e)) Fl lvl (- Z.of_nat (n + m)) [] hs hb); assumption.
  - intros y I. pose proof I as J. apply KI in J. destruct J as [->| ->]; [apply (Some_ ext e)|apply (Some_ ovf (d - e))]; try assumption; try lia; intros k Hk; apply (LC k Hk).
  - intros y p. apply (tc_back h h' a cs n m fams (n3_at n m l e (d - e)) Fl lvl (- Z.of_nat (n + m)) [] hs hb); assumption.
  - intros p y f Hp Bf Nyf I. pose proof I as J. apply KI in J. destruct (two_before ext ovf _ y f Ne (Ord p Hp) Bf Nyf J) as [-> ->]. right.
    split; [destruct ex_children as [X|[X _]]; rewrite X; reflexivity|]. split; [exact Io|].
    destruct Bf as (l1 & l2 & El & I2). assert (Ke : In ext (kids h' p)) by (rewrite El; apply in_or_app; right; left; reflexivity). assert (Ko : In ovf (kids h' p)) by (rewrite El; apply in_or_app; right; right; exact I2).
    destruct (Nat.le_gt_cases 2 (cnt ovf (kids h' p))) as [C2|C2]; [right; exact C2|left].
    pose proof (Lk p ovf Hp (or_introl Io)) as LO. apply cnt_in in Ko.
    destruct (LV ovf (d - e) Io ltac:(intros k Hk; apply (LC k Hk))) as (lev & E1 & E2). destruct (E2 p Hp) as (Rp & E3).
    destruct (pars h' ovf) as [|q1 rest] eqn:EP; [cbn in LO; lia|].
    assert (All : (forall q, In q (q1 :: rest) -> q = p) \/ exists q, In q (q1 :: rest) /\ q <> p).
    { clear. induction (q1 :: rest) as [|z zs IH]; [left; intros q []|]. destruct IH as [IH|(q & A & B)]; [|right; exists q; split; [right; exact A|exact B]]. destruct (Nat.eq_dec z p) as [->|Nz]; [left; intros q [<-|A]; auto|right; exists z; split; [left; reflexivity|exact Nz]]. }
    destruct All as [All|All]; [|exact All]. exfalso.
    assert (Lone : q1 :: rest = [p]).
    { assert (X : cnt p (q1 :: rest) = length (q1 :: rest)) by (clear - All; induction (q1 :: rest) as [|z zs IH]; [reflexivity|]; cbn [count_occ length]; rewrite (All z) by (left; reflexivity); destruct (Nat.eq_dec p p); [|congruence]; f_equal; apply IH; intros q I; apply All; right; exact I).
      rewrite X in LO. destruct rest; [rewrite (All q1) by (left; reflexivity); reflexivity|cbn [length] in LO; lia]. }
    rewrite Lone in E1. cbn [map] in E1. symmetry in E1. destruct (cut_once n m (d - e) (lev p) ltac:(lia) E1) as (_ & Eo).
    pose proof (E3 ext Ix Ke) as X. apply cnt_in in X. assert (Y : 0 < cut_at n m e (lev p)) by (destruct (LC (lev p) Rp) as (_ & <- & _); lia).
    pose proof (cut_some n m e (lev p) ltac:(lia) Rp Y). lia.
Qed.
