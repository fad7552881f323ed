(** Attaching and saving the recorded solutions. *)
From Verif Require Import Base BaseLemmas Cost Utils Fractions FractionsProofs Load LoadSpec LoadProofs Tree TreeSpec HeapLemmas TreeInv TreeGrow
  Search SearchSpec SearchInit SearchInv SearchProofs Expand Conclude SizeSpec PlantProofs AttachProofs FracProofs FrameProofs.
From Coq Require Import QArith Qcanon.
Open Scope Z_scope.

(** the state in which a solution is drawn: [t] in heap [h] completed to [t'] in heap [h'] *)
Lemma attached_solutions : forall p R fuel t, loaded p ->
  let s := snd (solve R fuel p) in
  In t (s_solutions s) ->
  let (h, leaves) := plant (s_heap s) (p_leaves p) in
  exists h' t',
    (forall n, (length h <= n)%nat -> attach_leaves n (map node_frac h) (tree_frac t) leaves = Ok (map node_frac h', tree_frac t')) /\
    network h' t' (p_sources p) /\ levelled h' t' /\ (forall a, in_tree h' t' a -> tagged h' a) /\
    Permutation (t_source_values t') (p_target_integers p) /\ t_roots t' = t_roots t /\ t_size t' = t_size t /\
    (forall a, in_tree h' t' a -> value h' a <= zsum (p_sources p)) /\
    (forall a c, in_tree h' t' a -> In (TExtract c) (n_expands (get h' a)) -> 2 * c < value h' a) /\
    (forall ns0, lists_tree (s_heap s) t ns0 -> exists ns, lists_tree h' t' ns /\ zsum (map (node_price h') ns) = zsum (map (node_price (s_heap s)) ns0) + p_size_offset p).
Proof.
  intros p R fuel t L s I. pose proof (iv_half _ _ _ _ _ _ _ _ (proj1 (run_inv p R fuel L))) as HV. pose proof (iv_sols _ _ _ _ _ _ _ _ (proj1 (run_inv p R fuel L))) as Q. rewrite Forall_forall in Q. destruct (Q t I) as (IE & ET & _).
  destruct (run_good p R fuel L t IE) as (N & G). pose proof (gd_wf _ _ _ _ G) as W. fold s in G, W.
  destruct L as (ss & ts & Ps & Pt & EL). destruct (load_grouped ss ts p Ps Pt EL) as (E1 & _ & _ & Fo & Pe & (costs & Fc & Ec)). destruct (load_reduced ss ts p Ps Pt EL) as (_ & _ & PT & _).
  assert (V : map (value (s_heap s)) (t_sources t) = map gvalue (p_leaves p)) by (rewrite <- E1, <- (wf_values _ _ _ W); exact ET).
  assert (PO : forall v, In v (flat_map gleaves (p_leaves p)) -> 0 < v).
  { rewrite Forall_forall in PT. intros v J. apply PT, (Permutation_in _ Pe J). }
  assert (TO : zsum (t_source_values t) = zsum (map (value (s_heap s)) (t_roots t))) by (rewrite (gd_roots _ _ _ _ G); apply (gd_total _ _ _ _ G)).
  destruct (attach_complete (s_heap s) t N (p_leaves p) W V Fo PO (gd_count _ _ _ _ G) TO (gd_open _ _ _ _ G) (gd_inner _ _ _ _ G)) as (h' & t' & A & B & C & D & E & F1 & F2 & _ & _ & Bd & Hf & Pr).
  rewrite (gd_roots _ _ _ _ G) in B. destruct (plant (s_heap s) (p_leaves p)) as [h leaves] eqn:EP. cbn [fst snd] in A. exists h', t'. split.
  - intros n Hn. rewrite attach_leaves_frac, (A n Hn). reflexivity.
  - repeat (split; [assumption|]). split; [rewrite E; exact Pe|]. split; [exact F1|]. split; [exact F2|]. split.
    + intros a Ia. destruct (Bd a Ia) as (b & Ib & Lb). pose proof (gd_bound _ _ _ _ G b (proj1 (wf_in_tree _ _ _ b W) Ib)). fold s in H. lia.
    + split; [intros a c Ia Ic; destruct (Hf a c Ia Ic) as (_ & Eg); unfold value; rewrite Eg in *; apply (HV a c Ic)|].
      intros ns0 L0. destruct (Pr ns0 L0) as (ns & Ln & En). exists ns. split; [exact Ln|]. rewrite En. f_equal. rewrite Ec. clear - Fc. unfold dprice. induction Fc as [|d c ds cs E Fc IH]; [reflexivity|]. cbn [map]. rewrite !zsum_cons, E, IH. reflexivity.
Qed.

Lemma c22_attached_solutions_lemma : forall p R fuel t, loaded p ->
  let s := snd (solve R fuel p) in
  In t (s_solutions s) ->
  let (h, leaves) := plant (s_heap s) (p_leaves p) in
  exists h' t',
    (forall n, (length h <= n)%nat -> attach_leaves n (map node_frac h) (tree_frac t) leaves = Ok (map node_frac h', tree_frac t')) /\
    network h' t' (p_sources p) /\ levelled h' t' /\ (forall a, in_tree h' t' a -> tagged h' a) /\
    Permutation (t_source_values t') (p_target_integers p) /\ t_roots t' = t_roots t /\ t_size t' = t_size t.
Proof.
  intros p R fuel t L s I. pose proof (attached_solutions p R fuel t L I) as A. fold s in A. destruct (plant (s_heap s) (p_leaves p)) as [h leaves]. destruct A as (h' & t' & A1 & A2 & A3 & A4 & A5 & A6 & A7 & _). exists h', t'. auto 10.
Qed.

(** the first solution is drawn as the completed network *)
Lemma c43_first_solution_lemma : forall p R fuel t rest concluding n, loaded p ->
  let s := snd (solve R fuel p) in
  s_solutions s = t :: rest -> (concluding O = true \/ rest = []) ->
  (length (s_heap s) + list_sum (map gsize (p_leaves p)) <= n)%nat ->
  exists h' t' files r,
    conclude n concluding p s = (MkSaved 0 false (map node_frac (set_levels 0 (t_roots t) h')) (t_roots t) :: files, r) /\
    network h' t' (p_sources p) /\ levelled h' t' /\ (forall a, in_tree h' t' a -> tagged h' a) /\
    Permutation (t_source_values t') (p_target_integers p) /\ t_roots t' = t_roots t.
Proof.
  intros p R fuel t rest concluding n L s ES EC Hn. assert (I : In t (s_solutions s)) by (rewrite ES; left; reflexivity).
  pose proof (c22_attached_solutions_lemma p R fuel t L I) as A. fold s in A.
  pose proof (plant_length (s_heap s) (p_leaves p)) as PL.
  pose proof (iv_count _ _ _ _ _ _ _ _ (proj1 (run_inv p R fuel L))) as CT. fold s in CT. rewrite ES in CT. cbn [length] in CT.
  unfold conclude. destruct (plant (s_heap s) (p_leaves p)) as [h leaves]. cbn [fst] in PL. destruct A as (h' & t' & A & B & C & D & E & F1 & F2).
  rewrite ES. cbn [map].
  assert (X : forall conc tl, conc O = true -> exists files r, save_all n conc 0 (map node_frac h) leaves (tree_frac t :: tl) =
    (MkSaved 0 false (map node_frac (set_levels 0 (t_roots t) h')) (t_roots t) :: files, r)).
  { intros conc tl Hc. cbn [save_all]. rewrite Hc. cbn [negb]. rewrite A by lia. unfold tree_save, node_save. change (t_roots (tree_frac t')) with (t_roots t'). rewrite F1, set_levels_frac.
    destruct (expand_roots n _ (t_roots t)) as [g|e]; [|eauto].
    destruct (save_all n conc 1 _ leaves tl) as [files' r']. cbn [app]. eauto. }
  assert (Y : exists fs r', (if s_solutions_count s >? 1 then save_all n concluding 0 (map node_frac h) leaves (tree_frac t :: map tree_frac rest)
     else save_all n (fun _ => true) 0 (map node_frac h) leaves [tree_frac t]) = (MkSaved 0 false (map node_frac (set_levels 0 (t_roots t) h')) (t_roots t) :: fs, r')).
  { destruct (s_solutions_count s >? 1) eqn:EG.
    - destruct EC as [EC| ->]; [|cbn [length] in CT; exfalso; lia]. destruct (X concluding (map tree_frac rest) EC) as (f1 & r1 & E1). rewrite E1. eauto.
    - destruct (X (fun _ => true) [] eq_refl) as (f1 & r1 & E1). rewrite E1. eauto. }
  destruct Y as (fs & r' & EY). exists h', t', fs, r'. split; [exact EY|]. auto.
Qed.

(** ** distinct targets *)
Lemma nodup_app_left {A} (l l' : list A) : NoDup (l ++ l') -> NoDup l.
Proof. induction l as [|x l IH]; intros H; [constructor|]. inversion H; subst. constructor; [|auto]. rewrite in_app_iff in *. tauto. Qed.
Lemma nodup_app_right {A} (l l' : list A) : NoDup (l ++ l') -> NoDup l'.
Proof. induction l as [|x l IH]; intros H; [exact H|]. inversion H; subst. auto. Qed.
Lemma folded_leaf_of_nodup g : folded g -> NoDup (gleaves g) -> gchildren g = [].
Proof.
  induction 1 as [v|w cs L EW F IH]; intros ND; [reflexivity|]. exfalso. destruct cs as [|c1 [|c2 cs]]; cbn [length] in L; try lia.
  rewrite gleaves_node in ND by discriminate. cbn [flat_map] in ND. rewrite app_assoc in ND. apply nodup_app_left in ND.
  assert (H1 : gchildren c1 = []) by (apply IH; [left; reflexivity|apply nodup_app_left in ND; exact ND]).
  assert (H2 : gchildren c2 = []) by (apply IH; [right; left; reflexivity|apply nodup_app_right in ND; exact ND]).
  pose proof (EW c1 (or_introl eq_refl)) as E1. pose proof (EW c2 (or_intror (or_introl eq_refl))) as E2.
  destruct c1 as [v1 t1 k1], c2 as [v2 t2 k2]. cbn [gchildren gvalue] in *. subst. cbn in ND. inversion ND as [|? ? NI _]; subst. apply NI. left. reflexivity.
Qed.
Lemma nodup_targets_ungrouped p : loaded p -> NoDup (p_target_integers p) -> forall g, In g (p_leaves p) -> gchildren g = [].
Proof.
  intros (ss & ts & Ps & Pt & EL) ND g I. destruct (load_grouped ss ts p Ps Pt EL) as (_ & _ & _ & Fo & Pe & _). rewrite Forall_forall in Fo. apply folded_leaf_of_nodup; [apply Fo, I|].
  apply (Permutation_NoDup (Permutation_sym Pe)) in ND. destruct (in_split _ _ I) as (l1 & l2 & E). rewrite E, flat_map_app in ND. cbn [flat_map] in ND. apply nodup_app_right in ND. apply nodup_app_left in ND. exact ND.
Qed.

Definition key (f : saved) : nat * bool := (sv_index f, sv_expanded f).

Section Ungrouped.
Variables (p : problem) (hs : heap Z) (leaves : list nat) (n : nat) (concluding : nat -> bool).

(** [h] still has the nodes of [t] *)
Definition intact (h : heap Qc) (t : tree Z) : Prop := (forall a, in_tree hs t a -> (a < length h)%nat /\ get h a = node_frac (get hs a)).
Definition untouched (h : heap Qc) : Prop := forall f, In f leaves -> n_children (get h f) = [] /\ (f < length h)%nat.

Lemma attach_nothing h t N : wf hs t N -> intact h t -> untouched h -> length leaves = length (t_sources t) -> t_n_sources t = Z.of_nat (length (t_sources t)) ->
  attach_leaves n h (tree_frac t) leaves = Ok (h, tree_frac t).
Proof.
  intros W IN UN EL EC. unfold attach_leaves. change (t_n_sources (tree_frac t)) with (t_n_sources t). rewrite EL, EC, Z.eqb_refl. cbn [negb]. change (t_sources (tree_frac t)) with (t_sources t).
  assert (S0 : forall s, In s (t_sources t) -> n_children (get h s) = []).
  { intros s I. apply (wf_open _ _ _ W) in I. destruct I as [Ns E]. destruct (IN s) as [_ G]; [apply (wf_in_tree _ _ _ _ W), Ns|]. rewrite G. exact E. }
  assert (A : fold_left (fun h q => adopt h (fst q) (snd q)) (combine (t_sources t) leaves) h = h).
  { assert (X : forall l, (forall s f, In (s, f) l -> n_children (get h s) = [] /\ n_children (get h f) = []) -> fold_left (fun h q => adopt h (fst q) (snd q)) l h = h).
    { induction l as [|[s f] l IH]; intros Hl; [reflexivity|]. cbn [fold_left fst snd]. destruct (Hl s f (or_introl eq_refl)) as [E1 E2]. unfold adopt at 2. rewrite E2. cbn [fold_left]. rewrite E1. cbn [length Nat.ltb Nat.leb]. apply IH. intros x y I. apply Hl. right. exact I. }
    apply X. intros s f I. split; [apply S0; eapply in_combine_l, I|apply UN; eapply in_combine_r, I]. }
  rewrite A. assert (F0 : filter (fun a => negb (length (n_children (get h a)) =? 0)%nat) (t_sources t) = []).
  { clear - S0. revert S0. generalize (t_sources t). induction l as [|s l IH]; intros S0; [reflexivity|]. cbn [filter]. rewrite (S0 s (or_introl eq_refl)). cbn. apply IH. intros x I. apply S0. right. exact I. }
  rewrite F0. destruct n; reflexivity.
Qed.

Lemma save_keeps h t N : wf hs t N -> intact h t -> untouched h -> (forall f, In f leaves -> ~ in_tree hs t f) ->
  forall i files h', tree_save n i h (tree_frac t) = (files, Ok h') -> untouched h' /\ forall u, apart hs t u -> intact h u -> intact h' u.
Proof.
  intros W IN UN LN i files h'. unfold tree_save, node_save. change (t_roots (tree_frac t)) with (t_roots t). set (P := fun a => in_tree hs t a \/ (length h <= a)%nat).
  assert (New : forall a, (length h <= a)%nat -> P a) by (intros a B; right; exact B).
  assert (Roots : Forall P (t_roots t)) by (apply Forall_forall; intros r I; left; exists r; split; [exact I|constructor]).
  assert (F0 : fr h P h).
  { constructor; [lia| |reflexivity]. intros a b [Ia|Ba] L.
    - destruct (IN a Ia) as [_ G]. rewrite G in L. left. apply (wf_in_tree _ _ _ _ W). apply (wf_in_tree _ _ _ _ W) in Ia. destruct L as [L|L]; [apply (wf_child _ _ _ W a b Ia L)|apply (wf_parent _ _ _ W a b Ia L)].
    - unfold get in L. rewrite nth_overflow in L by exact Ba. destruct L as [[]|[]]. }
  pose proof (fr_set_levels h P New 0 _ _ F0 Roots) as F1. destruct (expand_roots n (set_levels 0 (t_roots t) h) (t_roots t)) as [g|e] eqn:E; [|discriminate]. intros [= _ <-].
  pose proof (fr_expand h P New _ _ _ _ F1 Roots E) as F2. pose proof (fr_set_levels h P New 0 _ _ F2 Roots) as F3. set (g' := set_levels 0 (t_roots t) g) in *.
  assert (K : forall a, (a < length h)%nat -> ~ in_tree hs t a -> get g' a = get h a) by (intros a B Na; apply (fr_out _ _ _ F3); intros [X|X]; [contradiction|lia]).
  pose proof (fr_len _ _ _ F3) as LL. split.
  - intros f I. destruct (UN f I) as [U1 U2]. rewrite K; [|exact U2|apply LN, I]. split; [exact U1|lia].
  - intros u A Iu a Ia. destruct (Iu a Ia) as [B G]. split; [lia|]. rewrite K; [exact G|exact B|]. intros X. apply (A a X Ia).
Qed.

Definition drawn (sols : list (tree Z)) (f : saved) : Prop := sv_expanded f = false -> exists t, nth_error sols (sv_index f) = Some t /\ sv_roots f = t_roots t /\
  forall a, in_tree hs t a -> get (sv_heap f) a = node_frac (get (set_levels 0 (t_roots t) hs) a).

Lemma save_all_drawn sols : forall todo i h, (forall k t, nth_error todo k = Some t -> nth_error sols (i + k) = Some t) ->
  (forall t, In t todo -> exists N, wf hs t N /\ t_n_sources t = Z.of_nat (length (t_sources t)) /\ length leaves = length (t_sources t)) ->
  ForallOrdPairs (apart hs) todo -> Forall (intact h) todo -> untouched h -> (forall t f, In t todo -> In f leaves -> ~ in_tree hs t f) ->
  Forall (drawn sols) (fst (save_all n concluding i h leaves (map tree_frac todo))).
Proof.
  induction todo as [|t todo IH]; intros i h Nth Ok Ap In0 Un Ln; [constructor|]. cbn [map save_all]. destruct (negb (concluding i)); [constructor|].
  destruct (Ok t (or_introl eq_refl)) as (N & W & C1 & C2). inversion In0 as [|? ? It Ir]; subst. inversion Ap as [|? ? At Ar]; subst.
  rewrite (attach_nothing h t N W It Un C2 C1). destruct (tree_save n i h (tree_frac t)) as [files r] eqn:E.
  assert (D : Forall (drawn sols) files).
  { unfold tree_save, node_save in E. change (t_roots (tree_frac t)) with (t_roots t) in E.
    assert (D0 : drawn sols (MkSaved i false (set_levels 0 (t_roots t) h) (t_roots t))).
    { intros _. exists t. cbn [sv_index sv_roots sv_heap]. split; [rewrite <- (Nat.add_0_r i); apply Nth; reflexivity|]. split; [reflexivity|]. intros a Ia. destruct (It a Ia) as [B G].
      assert (Ba : (a < length hs)%nat) by (apply (wf_bound _ _ _ W), (wf_in_tree _ _ _ _ W), Ia).
      destruct (in_dec Nat.eq_dec a (t_roots t)) as [J|J].
      - rewrite !get_set_levels_in by assumption. rewrite G. reflexivity.
      - rewrite !get_set_levels_other by exact J. exact G. }
    assert (D1 : forall x y z, drawn sols (MkSaved x true y z)) by (intros x y z; intros [=]).
    destruct (expand_roots n (set_levels 0 (t_roots t) h) (t_roots t)) as [g|e]; injection E as <- <-; repeat constructor; auto. }
  destruct r as [h'|e]; [|exact D].
  destruct (save_keeps h t N W It Un (fun f I => Ln t f (or_introl eq_refl) I) i files h' E) as [Un' Keep].
  assert (X : Forall (drawn sols) (fst (save_all n concluding (S i) h' leaves (map tree_frac todo)))).
  { apply IH; auto.
    - intros k u Ek. replace (S i + k)%nat with (i + S k)%nat by lia. apply Nth. exact Ek.
    - intros u I. apply Ok. right. exact I.
    - rewrite Forall_forall in *. intros u I. apply Keep; [apply At, I|apply Ir, I].
    - intros u f I. apply Ln. right. exact I. }
  destruct (save_all n concluding (S i) h' leaves (map tree_frac todo)) as [files' r']. cbn [fst] in *. apply Forall_app. auto.
Qed.
End Ungrouped.

Lemma c43_distinct_targets_lemma : forall p R fuel n concluding f, loaded p -> NoDup (p_target_integers p) ->
  let s := snd (solve R fuel p) in
  In f (fst (conclude n concluding p s)) -> sv_expanded f = false ->
  exists t, nth_error (s_solutions s) (sv_index f) = Some t /\ sv_roots f = t_roots t /\
    forall a, in_tree (s_heap s) t a -> get (sv_heap f) a = node_frac (get (set_levels 0 (t_roots t) (s_heap s)) a).
Proof.
  intros p R fuel n concluding f L ND s I Ex. pose proof (nodup_targets_ungrouped p L ND) as UG. pose proof (proj1 (run_inv p R fuel L)) as IV. fold s in IV.
  pose proof (iv_sols _ _ _ _ _ _ _ _ IV) as SL. rewrite Forall_forall in SL.
  assert (GT : forall t, In t (s_solutions s) -> exists N, good p (s_heap s) t N) by (intros t It; apply (run_good p R fuel L t), (SL t It)).
  assert (E1 : p_targets p = map gvalue (p_leaves p)) by (destruct L as (ss & ts & Ps & Pt & EL); apply (load_grouped ss ts p Ps Pt EL)).
  assert (X : forall conc todo, (forall k t, nth_error todo k = Some t -> nth_error (s_solutions s) (0 + k) = Some t) -> ForallOrdPairs (apart (s_heap s)) todo ->
    Forall (drawn (s_heap s) (s_solutions s)) (fst (save_all n conc 0 (map node_frac (fst (plant (s_heap s) (p_leaves p)))) (snd (plant (s_heap s) (p_leaves p))) (map tree_frac todo)))).
  { intros conc todo Nth Ap. assert (Sub : forall t, In t todo -> In t (s_solutions s)) by (intros t It; apply In_nth_error in It; destruct It as (k & It); apply Nth in It; apply (nth_error_In _ _ It)).
    apply save_all_drawn; [exact Nth| |exact Ap| | |].
    - intros t It. destruct (GT t (Sub t It)) as (N & G). exists N. split; [apply (gd_wf _ _ _ _ G)|]. split; [apply (gd_count _ _ _ _ G)|].
      unfold plant. cbn [snd]. rewrite starts_length. destruct (SL t (Sub t It)) as (_ & ET & _). rewrite (wf_values _ _ _ (gd_wf _ _ _ _ G)), E1 in ET. apply (f_equal (@length Z)) in ET. rewrite !map_length in ET. congruence.
    - apply Forall_forall. intros t It a Ia. destruct (GT t (Sub t It)) as (N & G). pose proof (gd_wf _ _ _ _ G) as W. apply (wf_in_tree _ _ _ _ W), (wf_bound _ _ _ W) in Ia.
      rewrite map_length, plant_length, get_frac, plant_old by exact Ia. split; [lia|reflexivity].
    - intros x Ix. unfold plant in Ix. cbn [snd] in Ix. apply starts_in in Ix. destruct Ix as (g & Ix). pose proof (placed_top _ [] _ _ _ Ix) as Hp. change (in_forest (s_heap s) (p_leaves p) x g []) in Hp.
      rewrite get_frac, (plant_get _ _ _ _ _ Hp), map_length. split; [|apply (plant_range _ _ _ _ _ Hp)]. cbn. rewrite (UG g); [reflexivity|]. apply tops_in in Ix. apply Ix.
    - intros t x It Ix J. destruct (GT t (Sub t It)) as (N & G). pose proof (gd_wf _ _ _ _ G) as W. apply (wf_in_tree _ _ _ _ W), (wf_bound _ _ _ W) in J.
      unfold plant in Ix. cbn [snd] in Ix. apply starts_ge in Ix. lia. }
  unfold conclude in I. destruct (plant (s_heap s) (p_leaves p)) as [h leaves] eqn:EP. cbn [fst snd] in X.
  assert (Y : Forall (drawn (s_heap s) (s_solutions s)) (fst (if s_solutions_count s >? 1 then save_all n concluding 0 (map node_frac h) leaves (map tree_frac (s_solutions s))
     else match map tree_frac (s_solutions s) with [] => ([], Ok (map node_frac h)) | t :: _ => save_all n (fun _ => true) 0 (map node_frac h) leaves [t] end))).
  { destruct (s_solutions_count s >? 1).
    - apply X; [auto|apply (iv_sols_apart _ _ _ _ _ _ _ _ IV)].
    - destruct (s_solutions s) as [|t rest]; [constructor|]. cbn [map]. apply (X (fun _ => true) [t]); [|repeat constructor]. intros [|[|k]] u E; try discriminate. exact E. }
  rewrite Forall_forall in Y. apply (Y f I Ex).
Qed.

(** files are written in order, and all of them unless an exception is raised or the saving is stopped *)
Definition all_keys (i k : nat) : list (nat * bool) := flat_map (fun j => [(j, false); (j, true)]) (seq i k).
Lemma save_all_keys n concluding leaves : forall trees i h, let (files, r) := save_all n concluding i h leaves trees in
  (exists l, map key files ++ l = all_keys i (length trees)) /\ (forall h', r = Ok h' -> (forall j, concluding j = true) -> map key files = all_keys i (length trees)).
Proof.
  induction trees as [|t trees IH]; intros i h; [cbn; split; [exists []; reflexivity|reflexivity]|]. cbn [save_all length]. destruct (concluding i) eqn:EC; cbn [negb].
  2: { split; [exists (all_keys i (S (length trees))); reflexivity|]. intros h' _ A. rewrite A in EC. discriminate. }
  destruct (attach_leaves n h t leaves) as [[h1 t1]|e]; [|split; [exists (all_keys i (S (length trees))); reflexivity|discriminate]].
  unfold tree_save, node_save. destruct (expand_roots n _ (t_roots t1)) as [g|e].
  - specialize (IH (S i) (set_levels 0 (t_roots t1) g)). destruct (save_all n concluding (S i) _ leaves trees) as [files r]. destruct IH as [[l IH1] IH2].
    unfold all_keys in *. cbn [seq flat_map map app key sv_index sv_expanded]. split.
    + exists l. rewrite IH1. reflexivity.
    + intros h' E A. rewrite (IH2 h' E A). reflexivity.
  - split; [|discriminate]. exists ((i, true) :: all_keys (S i) (length trees)). reflexivity.
Qed.
Lemma c43_files_lemma : forall p R fuel n concluding, loaded p ->
  let s := snd (solve R fuel p) in
  let (files, r) := conclude n concluding p s in
  (exists l, map key files ++ l = all_keys 0 (length (s_solutions s))) /\
  (forall h', r = Ok h' -> (forall j, concluding j = true) -> map key files = all_keys 0 (length (s_solutions s))).
Proof.
  intros p R fuel n concluding L s. pose proof (iv_count _ _ _ _ _ _ _ _ (proj1 (run_inv p R fuel L))) as CT. fold s in CT.
  unfold conclude. destruct (plant (s_heap s) (p_leaves p)) as [h leaves]. destruct (s_solutions_count s >? 1) eqn:EG.
  - pose proof (save_all_keys n concluding leaves (map tree_frac (s_solutions s)) 0 (map node_frac h)) as X. rewrite map_length in X. exact X.
  - destruct (s_solutions s) as [|t [|u rest]] eqn:ES; cbn [length] in CT.
    + cbn. split; [exists []; reflexivity|reflexivity].
    + pose proof (save_all_keys n (fun _ => true) leaves [tree_frac t] 0 (map node_frac h)) as X. cbn [map]. destruct (save_all n (fun _ => true) 0 (map node_frac h) leaves [tree_frac t]) as [files r]. destruct X as [X1 X2]. split; [exact X1|]. intros h' E _. apply (X2 h' E). reflexivity.
    + exfalso. lia.
Qed.
