(** Solutions without an overloaded node are expanded and saved. *)
From Verif Require Import Base BaseLemmas Cost CostProofs Utils Fractions FractionsProofs Load LoadSpec LoadProofs Tree TreeSpec HeapLemmas TreeInv TreeGrow
  Search SearchSpec SearchInit SearchInv SearchProofs SearchWitness Expand LevelProofs ExpandProofs ExtractProofs Conclude PlantProofs AttachProofs FracProofs FrameProofs ConcludeProofs
  LocalProofs MergeSafe TraverseSafe SavedSpec.
From Coq Require Import QArith Qcanon.
Open Scope Z_scope.

Lemma own_tag h a t : tagged h a -> In t (n_expands (get h a)) ->
  (t = TMerge 3) \/ (is_op t = true /\ (2 <= length (children h a))%nat /\ exists own, In t own /\ split_tags (value h a) (map (value h) (children h a)) own).
Proof.
  intros (own & E & S1 & S2) I. rewrite E in I. apply in_app_or in I. destruct I as [I|I]; [destruct (3 <? _)%nat; [destruct I as [<-|[]]; auto|destruct I]|].
  right. destruct (Nat.lt_ge_cases (length (children h a)) 2) as [B|B]; [rewrite (S2 B) in I; destruct I|]. specialize (S1 B). split; [|split; [exact B|exists own; auto]].
  destruct S1; [destruct (zmem _ _); [destruct I|destruct I as [<-|[]]; reflexivity]|destruct (3 <? d); [destruct I as [<-|[]]; reflexivity|destruct I]|destruct I as [<-|[]]; reflexivity].
Qed.
Lemma one_op h a : tagged h a -> (length (filter is_op (n_expands (get h a))) <= 1)%nat.
Proof.
  intros (own & E & S1 & S2). rewrite E, filter_app, app_length. assert (X : length (filter is_op (if (3 <? length (parents h a))%nat then [TMerge 3] else [])) = 0%nat) by (destruct (3 <? _)%nat; reflexivity). rewrite X. cbn [Nat.add].
  destruct (Nat.lt_ge_cases (length (children h a)) 2) as [B|B]; [rewrite (S2 B); cbn; lia|]. destruct (S1 B); [destruct (zmem _ _)|destruct (3 <? d)|]; cbn; lia.
Qed.

Section Network.
Variables (h : heap Z) (t : tree Z) (vals : list Z) (g : heap Qc).
Hypothesis N : network h t vals.
Hypothesis Lv : levelled h t.
Hypothesis Tg : forall a, in_tree h t a -> tagged h a.
Hypothesis Same : forall a, in_tree h t a -> (a < length g)%nat /\ get g a = node_frac (get h a).
Let H : heap Qc := set_levels 0 (t_roots t) g.

Lemma H_length : length H = length g.
Proof. apply set_levels_length. Qed.
Lemma H_field {B} (f : forall V, node V -> B) a : in_tree h t a -> (forall V l (n : node V), f V (set_level l n) = f V n) -> (forall n, f Qc (node_frac n) = f Z n) -> f Qc (get H a) = f Z (get h a).
Proof. intros Ia F1 F2. unfold H. rewrite (get_set_levels (f Qc) 0 (t_roots t) g a); [|intros; apply F1]. rewrite (proj2 (Same a Ia)). apply F2. Qed.
Lemma H_kids a : in_tree h t a -> kids H a = children h a.
Proof. intros Ia. apply (H_field (@n_children) a Ia); reflexivity. Qed.
Lemma H_pars a : in_tree h t a -> pars H a = parents h a.
Proof. intros Ia. apply (H_field (@n_parents) a Ia); reflexivity. Qed.
Lemma H_tags a : in_tree h t a -> n_expands (get H a) = n_expands (get h a).
Proof. intros Ia. apply (H_field (@n_expands) a Ia); reflexivity. Qed.
Lemma H_value a : in_tree h t a -> n_value (get H a) = frac_of_Z (value h a).
Proof. intros Ia. unfold H. rewrite (get_set_levels (@n_value Qc) 0 (t_roots t) g a) by reflexivity. rewrite (proj2 (Same a Ia)). reflexivity. Qed.
Lemma H_level a : in_tree h t a -> exists l, n_level (get H a) = Some l.
Proof.
  intros Ia. destruct (in_dec Nat.eq_dec a (t_roots t)) as [J|J].
  - unfold H. rewrite get_set_levels_in; [eexists; reflexivity|exact J|apply (Same a Ia)].
  - unfold H. rewrite get_set_levels_other by exact J. rewrite (proj2 (Same a Ia)). destruct (in_dec Nat.eq_dec a (t_sources t)) as [K|K]; [exists (t_current_level t); apply (lev_open _ _ Lv a K)|].
    destruct (lev_inner _ _ Lv a Ia K) as (l & E & _). exists l. exact E.
Qed.
Lemma child_in a c : in_tree h t a -> In c (children h a) -> in_tree h t c.
Proof. intros (r & Ir & B) I. exists r. split; [exact Ir|]. eapply below_step; [exact B|exact I]. Qed.

Lemma divide_le v d q l : 0 < d -> v = d * q -> v * (d + l) <= 1200 * d -> (frac_of_Z v + frac_of_Z l * frac_of_Z v / frac_of_Z d <= frac_of_Z conveyor_speed_limit)%Qc.
Proof.
  intros Hd -> Le. assert (E : (frac_of_Z (d * q) + frac_of_Z l * frac_of_Z (d * q) / frac_of_Z d)%Qc = frac_of_Z (d * q + l * q)).
  { rewrite foz_plus, !foz_mult. assert (frac_of_Z d <> Q2Qc 0) by (apply foz_neq0; lia). field. exact H0. }
  rewrite E. apply (proj1 (foz_le _ _)). change conveyor_speed_limit with 1200. apply (Zmult_le_reg_r _ _ d); [lia|]. replace ((d * q + l * q) * d) with (d * q * (d + l)) by ring. exact Le.
Qed.

Lemma network_ready a : in_tree h t a -> ~ overloaded h a -> forall x, In x (n_expands (get H a)) -> op_ready H a x.
Proof.
  intros Ia Ov x I. rewrite H_tags in I by exact Ia. pose proof (net_positive _ _ _ N a Ia) as Pa. destruct (net_simple _ _ _ N a Ia) as [ND _].
  destruct (own_tag h a x (Tg a Ia) I) as [->|(Op & L2 & own & Io & S)]; [cbn; lia|].
  assert (NO : forall d n m l s, branches (value h a) x = Some d -> find_n_m_l d = Ok (n, m, l, s) -> value h a * (d + l) <= 1200 * d).
  { intros d n m l s E1 E2. destruct (Z.le_gt_cases (value h a * (d + l)) (1200 * d)) as [B|B]; [exact B|]. exfalso. apply Ov. exists x, d, n, m, l, s. auto. }
  destruct S as [c Bc Nc Pm|d q Hd Ev Es|c q Ic Ec Hq Pm].
  - destruct (zmem c _); [destruct Io|]. destruct Io as [<-|[]]. cbn [op_ready]. set (v := value h a) in *.
    assert (X : exists e o, e <> o /\ (children h a = [e; o] \/ children h a = [o; e]) /\ value h e = c /\ value h o = v - c).
    { destruct (children h a) as [|k1 [|k2 [|k3 ks]]]; try (apply Permutation_length in Pm; cbn in Pm; lia). inversion ND as [|? ? Nk _]; subst. assert (k1 <> k2) by (intros ->; apply Nk; left; reflexivity).
      cbn [map] in Pm. apply Permutation_length_2 in Pm. destruct Pm as [[E1 E2]|[E1 E2]]; [exists k1, k2|exists k2, k1]; auto. }
    destruct X as (e & o & Ne & Ek & Ve & Vo). assert (Ie : in_tree h t e /\ in_tree h t o) by (split; apply (child_in a _ Ia); destruct Ek as [-> | ->]; cbn; auto). destruct Ie as [Ie Io].
    exists v, e, o. rewrite !H_value, H_kids by assumption. split; [reflexivity|]. split; [lia|]. split; [lia|]. split; [exact Ne|]. split; [destruct Ek as [-> | ->]; [left; reflexivity|right; split; [reflexivity|lia]]|].
    split; [rewrite Ve; reflexivity|]. split; [rewrite Vo; reflexivity|].
    assert (Eg : Z.gcd v (v - c) = Z.gcd v c) by (rewrite <- Z.add_opp_l, Z.add_comm, Z.add_opp_r; rewrite <- (Z.gcd_opp_r v (v - c)); replace (- (v - c)) with (c - v) by lia; apply Z.gcd_sub_diag_r).
    rewrite Eg. intros n m l s E. specialize (NO (v / Z.gcd v c) n m l s eq_refl E). change conveyor_speed_limit with 1200. destruct (Z.gcd_divide_l v c) as (z & Ez).
    assert (Gp : 0 < Z.gcd v c) by (pose proof (Z.gcd_nonneg v c); destruct (Z.eq_dec (Z.gcd v c) 0) as [G0|G0]; [apply Z.gcd_eq_0_l in G0|]; lia).
    set (gg := Z.gcd v c) in *. assert (Ez2 : v / gg = z) by (rewrite Ez; apply Z.div_mul; lia). rewrite Ez2 in NO. assert (Zp : 0 < z) by nia.
    apply (Zmult_le_reg_r _ _ z); [lia|]. replace ((v + l * gg) * z) with (v * (z + l)); [exact NO|]. rewrite Ez. ring.
  - destruct (3 <? d) eqn:E3; [|destruct Io]. destruct Io as [<-|[]]. cbn [op_ready]. rewrite H_kids, H_value by exact Ia. split; [exact Hd|]. split; [exact ND|]. split.
    + apply (f_equal (@length Z)) in Es. rewrite map_length, repeat_length in Es. rewrite Es. lia.
    + intros n m l s E. apply (divide_le _ d q); [lia|exact Ev|]. apply (NO d n m l s eq_refl E).
  - destruct Io as [<-|[]]. cbn [op_ready]. cbn in Ic. lia.
Qed.

Lemma network_expands : (forall a, in_tree h t a -> ~ overloaded h a) -> exists n0 h', forall n, (n0 <= n)%nat -> expand_roots n H (t_roots t) = Ok h'.
Proof.
  intros Ov. set (P := fun a => in_tree h t a \/ (length H <= a)%nat).
  assert (O : forall x, old H P x -> in_tree h t x) by (intros x [[Ix|B] C]; [exact Ix|lia]).
  assert (O' : forall x, in_tree h t x -> old H P x) by (intros x Ix; split; [left; exact Ix|rewrite H_length; apply (Same x Ix)]).
  apply (expand_safe H P).
  - intros x B. right. exact B.
  - intros x Ox. apply H_level, O, Ox.
  - intros x Ox. rewrite H_value by (apply O, Ox). apply foz_nonneg. pose proof (net_positive _ _ _ N x (O x Ox)). lia.
  - intros x c Ox I. apply O'. rewrite H_kids in I by (apply O, Ox). apply (child_in x c (O x Ox) I).
  - intros x c Ox I. apply O'. rewrite H_pars in I by (apply O, Ox). apply (net_parents _ _ _ N x c (O x Ox) I).
  - intros x c Ox Oc. rewrite H_kids, H_pars by (apply O; assumption). apply (net_links _ _ _ N); apply O; assumption.
  - intros x u Ox. apply network_ready; [apply O, Ox|apply Ov, O, Ox].
  - intros x Ox. rewrite H_tags by (apply O, Ox). apply one_op, Tg, O, Ox.
  - intros x u c Ox I Op J. pose proof (O x Ox) as Ix. rewrite H_tags in I by exact Ix. rewrite H_kids in J by exact Ix. rewrite H_pars by (apply (child_in x c Ix J)).
    destruct (own_tag h x u (Tg x Ix) I) as [->|(_ & L2 & _)]; [discriminate|]. destruct (net_flow _ _ _ N x Ix) as [E|[(_ & F & _)|(m & E & _)]]; [rewrite E in J; destruct J| |rewrite E in L2; cbn in L2; lia].
    rewrite Forall_forall in F. apply F, J.
  - intros r Ir. assert (Ix : in_tree h t r) by (exists r; split; [exact Ir|constructor]). split; [apply O', Ix|]. rewrite H_pars by exact Ix. apply (net_top _ _ _ N r Ix), Ir.
Qed.
End Network.

(** ** the first solution *)
Lemma light_node h a vals : (forall x, In x (n_expands (get h a)) -> branches (value h a) x <> None -> forall d, branches (value h a) x = Some d -> 1 <= d) ->
  0 < value h a -> value h a <= zsum vals -> zsum vals <= 600 -> ~ overloaded h a.
Proof.
  intros Hd Pa L1 L2 (x & d & n & m & l & s & I & E1 & E2 & B). assert (D : 1 <= d) by (apply (Hd x I); [rewrite E1; discriminate|exact E1]). pose proof (find_n_m_l_l_small d n m l s D E2). nia.
Qed.
Lemma tag_branches h a x d : tagged h a -> 0 < value h a -> In x (n_expands (get h a)) -> branches (value h a) x = Some d -> 1 <= d.
Proof.
  intros T Pa I E. destruct (own_tag h a x T I) as [->|(_ & _ & own & Io & S)]; [discriminate|]. destruct S as [c Bc Nc Pm|d' q Hd Ev Es|c q Ic Ec Hq Pm].
  - destruct (zmem c _); [destruct Io|]. destruct Io as [<-|[]]. injection E as <-. pose proof (Z.gcd_nonneg (value h a) c).
    assert (G0 : Z.gcd (value h a) c <> 0) by (intros G0; apply Z.gcd_eq_0_l in G0; lia).
    assert (Z.gcd (value h a) c <= value h a) by (apply Z.divide_pos_le; [exact Pa|apply Z.gcd_divide_l]). pose proof (Z.div_le_lower_bound (value h a) (Z.gcd (value h a) c) 1). lia.
  - destruct (3 <? d'); [|destruct Io]. destruct Io as [<-|[]]. injection E as <-. lia.
  - destruct Io as [<-|[]]. discriminate.
Qed.
Lemma light_network h t vals : network h t vals -> (forall a, in_tree h t a -> tagged h a) -> (forall a, in_tree h t a -> value h a <= zsum vals) -> zsum vals <= 600 ->
  forall a, in_tree h t a -> ~ overloaded h a.
Proof.
  intros N Tg Bd Le a Ia. pose proof (net_positive _ _ _ N a Ia) as Pa. apply (light_node h a vals); [|exact Pa|apply Bd, Ia|exact Le]. intros x I _ d. apply (tag_branches h a x d (Tg a Ia) Pa I).
Qed.

Lemma get_frac_in h a : (a < length h)%nat -> (a < length (map node_frac h))%nat /\ get (map node_frac h) a = node_frac (get h a).
Proof. intros B. rewrite map_length. split; [exact B|apply get_frac]. Qed.

Lemma c41_first_lemma : forall p R fuel t rest concluding, loaded p ->
  let s := snd (solve R fuel p) in
  s_solutions s = t :: rest -> (concluding O = true \/ rest = []) ->
  exists h' t', network h' t' (p_sources p) /\ levelled h' t' /\ (forall a, in_tree h' t' a -> tagged h' a) /\
    Permutation (t_source_values t') (p_target_integers p) /\ t_roots t' = t_roots t /\
    (zsum (p_sources p) <= 600 -> forall a, in_tree h' t' a -> ~ overloaded h' a) /\
    ((forall a, in_tree h' t' a -> ~ overloaded h' a) ->
      exists n0 g, forall n, (n0 <= n)%nat -> exists files r,
        conclude n concluding p s = (MkSaved 0 false (map node_frac (set_levels 0 (t_roots t) h')) (t_roots t) :: MkSaved 0 true g (t_roots t) :: files, r) /\
        (rest = [] -> files = [] /\ r = Ok g)).
Proof.
  intros p R fuel t rest concluding L s ES EC. assert (I : In t (s_solutions s)) by (rewrite ES; left; reflexivity).
  pose proof (attached_solutions p R fuel t L I) as A. fold s in A.
  pose proof (iv_count _ _ _ _ _ _ _ _ (proj1 (run_inv p R fuel L))) as CT. fold s in CT. rewrite ES in CT. cbn [length] in CT.
  unfold conclude. destruct (plant (s_heap s) (p_leaves p)) as [h leaves]. destruct A as (h' & t' & A & B & C & D & E & F1 & F2 & F3 & _).
  exists h', t'. split; [exact B|]. split; [exact C|]. split; [exact D|]. split; [exact E|]. split; [exact F1|]. split; [apply (light_network h' t' _ B D F3)|]. intros Ov.
  destruct (network_expands h' t' (p_sources p) (map node_frac h') B C D (fun a Ia => get_frac_in h' a (net_alloc _ _ _ B a Ia)) Ov) as (n0 & g & Eg).
  exists (Nat.max n0 (length h)), (set_levels 0 (t_roots t) g). intros n Hn. rewrite ES. cbn [map].
  assert (X : forall conc tl, conc O = true -> exists files r, save_all n conc 0 (map node_frac h) leaves (tree_frac t :: tl) =
    (MkSaved 0 false (map node_frac (set_levels 0 (t_roots t) h')) (t_roots t) :: MkSaved 0 true (set_levels 0 (t_roots t) g) (t_roots t) :: files, r) /\ (tl = [] -> files = [] /\ r = Ok (set_levels 0 (t_roots t) g))).
  { intros conc tl Hc. cbn [save_all]. rewrite Hc. cbn [negb]. rewrite A by lia. unfold tree_save, node_save. change (t_roots (tree_frac t')) with (t_roots t'). rewrite F1 in *. rewrite (Eg n) by lia. rewrite set_levels_frac.
    destruct (save_all n conc 1 _ leaves tl) as [files' r'] eqn:ET. cbn [app]. exists files', r'. split; [reflexivity|]. intros ->. cbn in ET. injection ET as <- <-. auto. }
  destruct (s_solutions_count s >? 1) eqn:EG.
  - destruct EC as [EC| ->]; [|cbn [length] in CT; exfalso; lia]. destruct (X concluding (map tree_frac rest) EC) as (f1 & r1 & E1 & E2). exists f1, r1. split; [exact E1|]. intros ->. cbn [length] in CT. exfalso. lia.
  - destruct (X (fun _ => true) [] eq_refl) as (f1 & r1 & E1 & E2). exists f1, r1. split; [exact E1|]. intros _. apply E2. reflexivity.
Qed.

(** ** distinct targets *)
Section Distinct.
Variables (hs : heap Z) (leaves : list nat) (concluding : nat -> bool).

Lemma save_all_safe : forall todo i h,
  (forall t, In t todo -> (exists N, wf hs t N /\ t_n_sources t = Z.of_nat (length (t_sources t)) /\ length leaves = length (t_sources t)) /\
    (exists vals, network hs t vals) /\ levelled hs t /\ (forall a, in_tree hs t a -> tagged hs a /\ ~ overloaded hs a)) ->
  ForallOrdPairs (apart hs) todo -> Forall (intact hs h) todo -> untouched leaves h -> (forall t f, In t todo -> In f leaves -> ~ in_tree hs t f) ->
  exists n0 files h', forall n, (n0 <= n)%nat -> save_all n concluding i h leaves (map tree_frac todo) = (files, Ok h').
Proof.
  induction todo as [|t todo IH]; intros i h Okt Ap In0 Un Ln; [exists 0%nat, [], h; reflexivity|]. cbn [map save_all]. destruct (negb (concluding i)) eqn:EC; [exists 0%nat, [], h; reflexivity|].
  destruct (Okt t (or_introl eq_refl)) as ((N & W & C1 & C2) & (vals & NW) & Lv & TO). inversion In0 as [|? ? It Ir]; subst. inversion Ap as [|? ? At Ar]; subst.
  destruct (network_expands hs t vals h NW Lv (fun a Ia => proj1 (TO a Ia)) It (fun a Ia => proj2 (TO a Ia))) as (n0 & g & Eg).
  assert (Sv : forall n, (n0 <= n)%nat -> tree_save n i h (tree_frac t) = ([MkSaved i false (set_levels 0 (t_roots t) h) (t_roots t); MkSaved i true (set_levels 0 (t_roots t) g) (t_roots t)], Ok (set_levels 0 (t_roots t) g))).
  { intros n Hn. unfold tree_save, node_save. change (t_roots (tree_frac t)) with (t_roots t). rewrite (Eg n Hn). reflexivity. }
  destruct (save_keeps hs leaves n0 concluding h t N W It Un (fun f I => Ln t f (or_introl eq_refl) I) i _ _ (Sv n0 (Nat.le_refl _))) as [Un' Keep].
  destruct (IH (S i) (set_levels 0 (t_roots t) g)) as (n1 & files & h' & Er).
  - intros u I. apply Okt. right. exact I.
  - exact Ar.
  - rewrite Forall_forall in *. intros u I. apply Keep; [apply At, I|apply Ir, I].
  - exact Un'.
  - intros u f I. apply Ln. right. exact I.
  - eexists (Nat.max n0 n1), _, h'. intros n Hn. rewrite (attach_nothing hs leaves n h t N W It Un C2 C1), (Sv n) by lia. rewrite (Er n) by lia. reflexivity.
Qed.
End Distinct.

Lemma run_bound p R fuel t a : loaded p -> let s := snd (solve R fuel p) in In t (explored p (s_log s)) -> in_tree (s_heap s) t a -> value (s_heap s) a <= zsum (p_sources p).
Proof. intros L s It Ia. destruct (run_good p R fuel L t It) as (N & G). apply (gd_bound _ _ _ _ G), (wf_in_tree _ _ _ _ (gd_wf _ _ _ _ G)), Ia. Qed.

Lemma c41_distinct_lemma : forall p R fuel concluding, loaded p -> NoDup (p_target_integers p) ->
  let s := snd (solve R fuel p) in
  (forall t a, In t (s_solutions s) -> in_tree (s_heap s) t a -> ~ overloaded (s_heap s) a) ->
  exists n0 files h', forall n, (n0 <= n)%nat -> conclude n concluding p s = (files, Ok h').
Proof.
  intros p R fuel concluding L ND s Ov. pose proof (nodup_targets_ungrouped p L ND) as UG. pose proof (proj1 (run_inv p R fuel L)) as IV. fold s in IV.
  pose proof (iv_sols _ _ _ _ _ _ _ _ IV) as SL. rewrite Forall_forall in SL.
  assert (GT : forall t, In t (s_solutions s) -> exists N, good p (s_heap s) t N) by (intros t It; apply (run_good p R fuel L t), (SL t It)).
  assert (E1 : p_targets p = map gvalue (p_leaves p)) by (destruct L as (ss & ts & Ps & Pt & EL); apply (load_grouped ss ts p Ps Pt EL)).
  assert (X : forall conc todo, incl todo (s_solutions s) -> ForallOrdPairs (apart (s_heap s)) todo ->
    exists n0 files h', forall n, (n0 <= n)%nat -> save_all n conc 0 (map node_frac (fst (plant (s_heap s) (p_leaves p)))) (snd (plant (s_heap s) (p_leaves p))) (map tree_frac todo) = (files, Ok h')).
  { intros conc todo Sub Ap. apply (save_all_safe (s_heap s)); [|exact Ap| | |].
    - intros t It. destruct (GT t (Sub t It)) as (N & G). destruct (good_network p (s_heap s) t (ex_intro _ N G)) as (G1 & G2 & G3 & _). split; [|split; [exists (p_sources p); exact G1|split; [exact G2|]]].
      + exists N. split; [apply (gd_wf _ _ _ _ G)|]. split; [apply (gd_count _ _ _ _ G)|].
        unfold plant. cbn [snd]. rewrite starts_length. destruct (SL t (Sub t It)) as (_ & ET & _). rewrite (wf_values _ _ _ (gd_wf _ _ _ _ G)), E1 in ET. apply (f_equal (@length Z)) in ET. rewrite !map_length in ET. congruence.
      + intros a Ia. split; [apply G3, Ia|apply (Ov t a (Sub t It) Ia)].
    - apply Forall_forall. intros t It a Ia. destruct (GT t (Sub t It)) as (N & G). pose proof (gd_wf _ _ _ _ G) as W. apply (wf_in_tree _ _ _ _ W), (wf_bound _ _ _ W) in Ia.
      rewrite map_length, plant_length, get_frac, plant_old by exact Ia. split; [lia|reflexivity].
    - intros x Ix. unfold plant in Ix. cbn [snd] in Ix. apply starts_in in Ix. destruct Ix as (g & Ix). pose proof (placed_top _ [] _ _ _ Ix) as Hp. change (in_forest (s_heap s) (p_leaves p) x g []) in Hp.
      rewrite get_frac, (plant_get _ _ _ _ _ Hp), map_length. split; [|apply (plant_range _ _ _ _ _ Hp)]. cbn. rewrite (UG g); [reflexivity|]. apply tops_in in Ix. apply Ix.
    - intros t x It Ix J. destruct (GT t (Sub t It)) as (N & G). pose proof (gd_wf _ _ _ _ G) as W. apply (wf_in_tree _ _ _ _ W), (wf_bound _ _ _ W) in J.
      unfold plant in Ix. cbn [snd] in Ix. apply starts_ge in Ix. lia. }
  unfold conclude. destruct (plant (s_heap s) (p_leaves p)) as [h leaves] eqn:EP. cbn [fst snd] in X. destruct (s_solutions_count s >? 1).
  - apply X; [apply incl_refl|apply (iv_sols_apart _ _ _ _ _ _ _ _ IV)].
  - destruct (s_solutions s) as [|t rest] eqn:ES; [exists 0%nat; eexists; eexists; reflexivity|]. cbn [map]. apply (X (fun _ => true) [t]); [|repeat constructor]. intros u [<-|[]]. left. reflexivity.
Qed.

Lemma c41_light_lemma : forall p R fuel, loaded p -> zsum (p_sources p) <= 600 ->
  let s := snd (solve R fuel p) in forall t a, In t (s_solutions s) -> in_tree (s_heap s) t a -> ~ overloaded (s_heap s) a.
Proof.
  intros p R fuel L Le s t a It. pose proof (iv_sols _ _ _ _ _ _ _ _ (proj1 (run_inv p R fuel L))) as SL. rewrite Forall_forall in SL. fold s in SL. destruct (SL t It) as (IE & _).
  destruct (good_network p (s_heap s) t (run_good p R fuel L t IE)) as (G1 & _ & G3 & _). apply (light_network (s_heap s) t _ G1 G3); [|exact Le]. intros b Ib. apply (run_bound p R fuel t b L IE Ib).
Qed.

(** everything is saved *)
Lemma c41_all_lemma : forall p R fuel, loaded p -> NoDup (p_target_integers p) ->
  let s := snd (solve R fuel p) in
  (forall t a, In t (s_solutions s) -> in_tree (s_heap s) t a -> ~ overloaded (s_heap s) a) ->
  exists n0 files h', (forall n, (n0 <= n)%nat -> conclude n (fun _ => true) p s = (files, Ok h')) /\
    map (fun f => (sv_index f, sv_expanded f)) files = flat_map (fun i => [(i, false); (i, true)]) (seq 0 (length (s_solutions s))).
Proof.
  intros p R fuel L ND s Ov. destruct (c41_distinct_lemma p R fuel (fun _ => true) L ND Ov) as (n0 & files & h' & E). fold s in E. exists n0, files, h'. split; [exact E|].
  pose proof (c43_files_lemma p R fuel n0 (fun _ => true) L) as K. cbv zeta in K. fold s in K. rewrite (E n0 (Nat.le_refl _)) in K. destruct K as [_ K]. apply (K h' eq_refl). auto.
Qed.
Lemma c41_low_flow_lemma : forall p R fuel, loaded p -> zsum (p_sources p) <= 600 ->
  let s := snd (solve R fuel p) in
  (forall t rest, s_solutions s = t :: rest -> exists n0, forall n, (n0 <= n)%nat -> exists f g files r,
     conclude n (fun _ => true) p s = (f :: g :: files, r) /\ sv_index f = O /\ sv_expanded f = false /\ sv_index g = O /\ sv_expanded g = true /\ (rest = [] -> exists h, r = Ok h)) /\
  (NoDup (p_target_integers p) -> exists n0 files h', (forall n, (n0 <= n)%nat -> conclude n (fun _ => true) p s = (files, Ok h')) /\
    map (fun f => (sv_index f, sv_expanded f)) files = flat_map (fun i => [(i, false); (i, true)]) (seq 0 (length (s_solutions s)))).
Proof.
  intros p R fuel L Le s. split.
  - intros t rest ES. destruct (c41_first_lemma p R fuel t rest (fun _ => true) L ES (or_introl eq_refl)) as (h' & t' & _ & _ & _ & _ & _ & Li & Sv). destruct (Sv (Li Le)) as (n0 & g & E). exists n0. intros n Hn. destruct (E n Hn) as (files & r & E1 & E2).
    fold s in E1. eexists _, _, files, r. split; [exact E1|]. repeat (split; [reflexivity|]). intros Er. destruct (E2 Er) as [_ ->]. eauto.
  - intros ND. apply (c41_all_lemma p R fuel L ND). apply (c41_light_lemma p R fuel L Le).
Qed.

(** ** the flow of a belt *)
Lemma c62_lemma : forall p R fuel, loaded p ->
  let s := snd (solve R fuel p) in
  (forall t a, In t (explored p (s_log s)) -> in_tree (s_heap s) t a -> value (s_heap s) a <= zsum (p_sources p)) /\
  (forall t, In t (s_solutions s) -> let (h, leaves) := plant (s_heap s) (p_leaves p) in
    exists h' t', (forall n, (length h <= n)%nat -> attach_leaves n (map node_frac h) (tree_frac t) leaves = Ok (map node_frac h', tree_frac t')) /\
      forall a, in_tree h' t' a -> value h' a <= zsum (p_sources p)).
Proof.
  intros p R fuel L s. split; [intros t a; apply (run_bound p R fuel t a L)|]. intros t It. pose proof (attached_solutions p R fuel t L It) as A. fold s in A.
  destruct (plant (s_heap s) (p_leaves p)) as [h leaves]. destruct A as (h' & t' & A1 & _ & _ & _ & _ & _ & _ & A8 & _). exists h', t'. auto.
Qed.

(** ** an example *)
(** "7 to 2 5" *)
Definition p_7 : problem := problem_of [55; 32; 116; 111; 32; 50; 32; 53].
Lemma p_7_loaded : loaded p_7.
Proof. apply loads_loaded. vm_compute. reflexivity. Qed.
Lemma p_7_example : loaded p_7 /\ NoDup (p_target_integers p_7) /\ zsum (p_sources p_7) = 7 /\ length (s_solutions (snd (solve R0 50 p_7))) = 3%nat /\
  existsb (fun n => match n_expands n with TExtract 2 :: _ => true | _ => false end) (s_heap (snd (solve R0 50 p_7))) = true.
Proof. split; [exact p_7_loaded|]. split; [repeat constructor; cbn; lia|]. vm_compute. auto. Qed.
Lemma p_7_light : let s := snd (solve R0 50 p_7) in forall t a, In t (s_solutions s) -> in_tree (s_heap s) t a -> ~ overloaded (s_heap s) a.
Proof. apply c41_light_lemma; [exact p_7_loaded|]. vm_compute. discriminate. Qed.
