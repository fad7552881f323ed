(** What expanding the tags of one node does to the lists of the other nodes. *)
From Verif Require Import Base BaseLemmas Cost CostSpec CostProofs Utils Fractions FractionsProofs Load Tree TreeSpec HeapLemmas Expand ExpandSpec BranchProofs LevelProofs BuildProofs
  ExpandProofs ExtractProofs FrameProofs MergeProofs LocalProofs MergeSafe TraverseSafe FlowSpec FlowProofs FlowMerge FlowTree FlowOps CoverWalk.
From Coq Require Import QArith Qcanon.
Open Scope Z_scope.

(** ** Merges *)
Definition fewer (b : bool) (a : nat) (l : list nat) : list nat := if b then without a l else l.
Lemma without_app a l m : without a (l ++ m) = without a l ++ without a m.
Proof. apply filter_app. Qed.
Lemma without_twice a l : without a (without a l) = without a l.
Proof. unfold without. rewrite filter_both. apply filter_ext. intros x. apply andb_diag. Qed.
Lemma without_out a l : ~ In a l -> without a l = l.
Proof. intros N. apply filter_id. intros x I. apply negb_true_iff, Nat.eqb_neq. intros ->. contradiction. Qed.
Lemma fewer_fewer b b' a l M : ~ In a M -> fewer b' a (fewer b a l ++ M) = fewer (b || b') a l ++ M.
Proof. intros N. destruct b, b'; cbn [orb fewer]; rewrite ?without_app, ?without_twice, ?(without_out a M) by exact N; reflexivity. Qed.

Record merged (h : heap Qc) (a : nat) (g : heap Qc) : Prop := {
  mg_len : (length h <= length g)%nat;
  mg_kids : forall w, (w < length h)%nat -> w <> a -> exists b M, kids g w = fewer b a (kids h w) ++ M /\ forall m, In m M -> (length h <= m < length g)%nat;
  mg_own : kids g a = kids h a;
  mg_pars : forall y, (y < length h)%nat -> y <> a -> pars g y = pars h y;
  mg_new : forall y, (length h <= y < length g)%nat -> length (pars g y) = 3%nat /\ kids g y <> [] /\ forall c, In c (kids g y) -> c = a \/ (length h <= c < length g)%nat;
  mg_in : forall p, In p (pars g a) -> In p (pars h a) \/ (length h <= p < length g)%nat
}.
Lemma merged_refl h a : merged h a h.
Proof. constructor; auto; try lia. intros w B N. exists false, []. rewrite app_nil_r. split; [reflexivity|intros m []]. Qed.
Lemma merged_step h a g g' x y z rest : (a < length h)%nat -> (forall p, In p (pars h a) -> (p < length h)%nat /\ p <> a) -> merged h a g -> gathered g g' a x y z rest -> merged h a g'.
Proof.
  intros Ba Hp M G. destruct M, G.
  assert (In3 : forall w, In w [x; y; z] -> In w (pars g a)) by (intros w I; rewrite ga_parents; apply in_or_app; right; cbn in I |- *; tauto).
  assert (N3 : forall w, In w [x; y; z] -> w <> a) by (intros w I ->; apply In3 in I; destruct (mg_in0 a I) as [J|J]; [apply (Hp a J); reflexivity|lia]).
  assert (K : forall w, (w < length g)%nat -> exists b j, kids g' w = fewer b a (kids g w) ++ repeat (length g) j).
  { intros w Bw. rewrite ga_kids by exact Bw. destruct (in_dec Nat.eq_dec w [x; y; z]); [exists true|exists false]; eexists; reflexivity. }
  constructor.
  - lia.
  - intros w Bw Nw. destruct (mg_kids0 w Bw Nw) as (b & M & E & HM). destruct (K w ltac:(lia)) as (b' & j & E'). exists (b || b')%bool, (M ++ repeat (length g) j).
    rewrite E', E, fewer_fewer, app_assoc by (intros I; apply HM in I; lia). split; [reflexivity|]. intros m I. apply in_app_or in I. destruct I as [I|I]; [apply HM in I; lia|apply repeat_spec in I; lia].
  - rewrite ga_kids by lia. rewrite cnt_out by (intros I; apply (N3 a I); reflexivity). cbn [repeat]. rewrite app_nil_r. destruct (in_dec Nat.eq_dec a [x; y; z]) as [I|I]; [destruct (N3 a I eq_refl)|exact mg_own0].
  - intros w Bw Nw. rewrite ga_pars by lia. apply mg_pars0; assumption.
  - intros w Bw. destruct (Nat.eq_dec w (length g)) as [->|Nw].
    + destruct ga_merger as [-> ->]. split; [reflexivity|]. split; [discriminate|]. intros c [<-|[]]. auto.
    + destruct (mg_new0 w ltac:(lia)) as (E1 & E2 & E3). rewrite ga_pars by lia. split; [exact E1|]. rewrite ga_kids by lia. split.
      * destruct (in_dec Nat.eq_dec w [x; y; z]) as [I|I]; [|intros X; apply app_eq_nil in X; destruct X; contradiction].
        intros X. apply app_eq_nil in X. destruct X as [_ X]. apply (f_equal (@length nat)) in X. rewrite repeat_length in X. apply (count_occ_In Nat.eq_dec) in I. cbn [length] in X. lia.
      * intros c I. apply in_app_or in I. destruct I as [I|I]; [|apply repeat_spec in I; lia]. assert (J : In c (kids g w)) by (destruct (in_dec Nat.eq_dec w [x; y; z]); [apply filter_In in I; apply I|exact I]). apply E3 in J. lia.
  - intros p I. rewrite ga_node in I. apply in_app_or in I. destruct I as [I|[<-|[]]]; [|lia]. destruct (mg_in0 p) as [J|J]; [rewrite ga_parents; apply in_or_app; left; exact I|auto|lia].
Qed.
Lemma merge_merged h a : (a < length h)%nat -> (forall p, In p (pars h a) -> (p < length h)%nat /\ p <> a) ->
  forall fuel k g g', merged h a g -> merge_loop fuel k g a = Ok g' -> merged h a g' /\
    (3 <= k -> forall w rest, pars g a = w :: rest -> ~ In w rest -> exists rest', pars g' a = w :: rest' /\ ~ In w rest' /\ kids g' w = kids g w).
Proof.
  intros Ba Hp. induction fuel as [|fuel IH]; intros k g g' M E; cbn [merge_loop] in E; destruct (Z.leb_spec (Z.of_nat (length (pars g a))) k) as [L|L]; try discriminate; try (injection E as <-; split; [exact M|eauto]).
  destruct (merge_three g a) as [g1|] eqn:E1; [|discriminate]. cbn [bind] in E.
  assert (Hg : forall p, In p (pars g a) -> (p < length g)%nat /\ p <> a) by (intros p I; pose proof (mg_len _ _ _ M); destruct (mg_in _ _ _ M p I) as [J|J]; [apply Hp in J|]; lia).
  destruct (merge_gathers g g1 a E1) as (x & y & z & rest & G); [pose proof (mg_len _ _ _ M); lia|exact Hg|].
  destruct (IH k g1 g' (merged_step _ _ _ _ _ _ _ _ Ba Hp M G) E) as (M' & F). split; [exact M'|]. intros Hk w r Ew Nw. destruct G.
  assert (X : exists rest0, rest = w :: rest0 /\ r = rest0 ++ [z; y; x]).
  { rewrite Ew in L, ga_parents. destruct rest as [|w' rest0]; cbn [app] in ga_parents.
    - apply (f_equal (@length nat)) in ga_parents. cbn [length] in L, ga_parents. lia.
    - injection ga_parents as <- ->. eauto. }
  destruct X as (rest0 & -> & ->).
  assert (Bw : (w < length g)%nat) by (apply Hg; rewrite Ew; left; reflexivity).
  assert (N3 : ~ In w [x; y; z]) by (intros I; apply Nw, in_or_app; right; cbn in I |- *; tauto).
  destruct (F Hk w (rest0 ++ [length g])) as (rest' & Er & Nr & Kr).
  - rewrite ga_node. reflexivity.
  - intros I. apply in_app_or in I. destruct I as [I|[I|[]]]; [apply Nw, in_or_app; left; exact I|lia].
  - exists rest'. split; [exact Er|]. split; [exact Nr|]. rewrite Kr, ga_kids by exact Bw. rewrite cnt_out by exact N3. destruct (in_dec Nat.eq_dec w [x; y; z]); [contradiction|]. apply app_nil_r.
Qed.

(** ** The order of the children of a splitter that replaces an extraction *)
Section Order.
Variables (ext ovf L a : nat).
Hypothesis Bx : (ext < L)%nat.
Hypothesis Bo : (ovf < L)%nat.
Hypothesis Nx : ext <> a.
Hypothesis No : ovf <> a.
Definition pure (l : list nat) : Prop := ~ In ext l /\ ~ In ovf l.
Definition one (l : list nat) : Prop := exists A i, l = A ++ repeat ext i /\ pure A.
Definition two (l : list nat) : Prop := exists A i j, l = A ++ repeat ext i ++ repeat ovf j /\ pure A.
Lemma pure_one l : pure l -> one l.
Proof. intros H. exists l, O. cbn. rewrite app_nil_r. auto. Qed.
Lemma one_two l : one l -> two l.
Proof. intros (A & i & -> & H). exists A, i, O. cbn. rewrite app_nil_r. auto. Qed.
Lemma pure_nil : pure [].
Proof. split; intros []. Qed.
Lemma pure_app l t : pure l -> t <> ext -> t <> ovf -> pure (l ++ [t]).
Proof. intros [A B] N1 N2. split; intros I; apply in_app_or in I; destruct I as [I|[I|[]]]; congruence || contradiction. Qed.
Lemma one_app l : one l -> one (l ++ [ext]).
Proof. intros (A & i & -> & H). exists A, (S i). rewrite <- app_assoc, <- repeat_cons. auto. Qed.
Lemma two_app l : two l -> two (l ++ [ovf]).
Proof. intros (A & i & j & -> & H). exists A, i, (S j). rewrite <- !app_assoc, <- repeat_cons. auto. Qed.

Definition mid (p : nat) : Prop := p = a \/ (L <= p)%nat.
(** the nodes of the current level have children of the kind [G], the others are done *)
Definition level (G : list nat -> Prop) (cur : list nat) (h : heap Qc) : Prop := (L <= length h)%nat /\ forall p, mid p -> (In p cur -> G (kids h p)) /\ (~ In p cur -> two (kids h p)).
Lemma kids_upd p f (h : heap Qc) w : kids (upd p f h) w = kids h w \/ w = p /\ kids (upd p f h) w = n_children (f (get h w)).
Proof.
  destruct (Nat.eq_dec p w) as [<-|N]; [|left; rewrite get_upd_other by exact N; reflexivity]. destruct (Nat.lt_ge_cases p (length h)) as [B|B].
  - right. split; [reflexivity|]. rewrite get_upd_same by exact B. reflexivity.
  - left. rewrite !get_beyond by (rewrite ?upd_length; exact B). reflexivity.
Qed.
Lemma reroute_level (G : list nat -> Prop) r off cur t count : (forall l, G l -> G (l ++ [t])) -> forall h h', level G cur h -> reroute r off cur t count h = Ok h' -> level G cur h' /\ forall p, ~ In p cur -> kids h' p = kids h p.
Proof.
  intros HG. unfold reroute. generalize (zrange 0 count). induction l as [|j l IH]; intros h h' V E; cbn [fold_res] in E; [injection E as <-; auto|].
  unfold reroute_step in E at 1. destruct (at_index cur ((off + j) / r)) as [p|] eqn:Ep; [|discriminate]. cbn [bind] in E. apply at_index_in in Ep.
  set (h1 := upd t (add_parent p) (upd p (add_child t) h)) in *.
  assert (K : forall w, kids h1 w = kids h w \/ w = p /\ kids h1 w = kids h w ++ [t]).
  { intros w. unfold h1. assert (X : forall g, kids (upd t (add_parent p) g) w = kids g w) by (intros g; destruct (kids_upd t (add_parent p) g w) as [X|[_ X]]; exact X). rewrite X. apply kids_upd. }
  destruct (IH h1 h') as (V' & O); [|exact E|].
  - destruct V as [V1 V2]. split; [unfold h1; rewrite !upd_length; exact V1|]. intros w Hw. destruct (V2 w Hw) as [A B]. destruct (K w) as [->|[-> ->]]; [auto|]. split; [intros I; apply HG, A, I|contradiction].
  - split; [exact V'|]. intros w N. rewrite (O w N). destruct (K w) as [X|[-> _]]; [exact X|contradiction].
Qed.
Lemma grow_level r off cur v lvl lta : forall js h new h' new', level pure cur h -> fold_res (grow_step r off cur v lvl lta) js (h, new) = Ok (h', new') ->
  level pure cur h' /\ (length h <= length h')%nat /\ (forall p, ~ In p cur -> (p < length h)%nat -> kids h' p = kids h p) /\
  ((forall p, In p new -> (p < length h)%nat /\ pure (kids h p) /\ ~ In p cur) -> (forall p, In p cur -> (p < length h)%nat) -> forall p, In p new' -> (p < length h')%nat /\ pure (kids h' p) /\ ~ In p cur).
Proof.
  induction js as [|j js IH]; intros h new h' new' V E; cbn [fold_res] in E; [injection E as <- <-; split; [exact V|]; split; [lia|]; split; auto|].
  unfold grow_step in E at 1. destruct (new_node h v (Some lvl) lta) as [[g b]|] eqn:En; [|discriminate]. cbn [bind] in E. destruct (at_index cur ((off + j) / r)) as [p|] eqn:Ep; [|discriminate]. cbn [bind] in E. apply at_index_in in Ep.
  destruct (effect_new _ _ _ _ _ _ En) as (-> & LH & _). 
  assert (Kg : forall w, kids g w = kids h w).
  { intros w. unfold new_node in En. destruct (negative v); [discriminate|]. injection En as <-. destruct (Nat.lt_trichotomy w (length h)) as [B|[->|B]].
    - rewrite get_app_l by exact B. reflexivity.
    - rewrite get_app_new, get_beyond by lia. reflexivity.
    - rewrite !get_beyond by (rewrite ?app_length; cbn [length]; lia). reflexivity. }
  set (b := length h) in *. set (h1 := upd b (set_parents [p]) (upd p (add_child b) g)) in *.
  assert (L1 : length h1 = S b) by (unfold h1; rewrite !upd_length; exact LH).
  assert (K : forall w, kids h1 w = kids h w \/ w = p /\ kids h1 w = kids h w ++ [b]).
  { intros w. unfold h1. assert (X : forall g, kids (upd b (set_parents [p]) g) w = kids g w) by (intros g'; destruct (kids_upd b (set_parents [p]) g' w) as [X|[_ X]]; exact X). rewrite X, <- Kg. apply kids_upd. }
  destruct V as [V1 V2]. fold b in V1.
  assert (VV : level pure cur h1).
  { split; [lia|]. intros w Hw. destruct (V2 w Hw) as [A B]. destruct (K w) as [->|[-> ->]]; [auto|]. split; [|contradiction]. intros I. apply pure_app; [apply A, I|lia|lia]. }
  destruct (IH h1 (new ++ [b]) h' new' VV E) as (V' & Ln & O & N). split; [exact V'|]. split; [lia|]. split.
  - intros w Nw Bw. rewrite (O w Nw) by lia. destruct (K w) as [X|[-> _]]; [exact X|contradiction].
  - intros Hn Hc. apply N.
    + intros w I. apply in_app_or in I. destruct I as [I|[<-|[]]].
      * destruct (Hn w I) as (A & B & C). split; [lia|]. split; [|exact C]. destruct (K w) as [->|[-> _]]; [exact B|contradiction].
      * assert (Nb : ~ In b cur) by (intros I; apply Hc in I; unfold b in I; lia). split; [lia|]. split; [|exact Nb]. destruct (K b) as [->|[-> _]]; [|contradiction]. unfold b. rewrite get_beyond by lia. apply pure_nil.
    + intros w I. specialize (Hc w I). fold b in Hc. lia.
Qed.

Section Build.
Variables (n K : nat) (cl ce co : nat -> Z) (N : nat -> Z) (flow : nat -> Qc) (lvl lta : Z) (result : list nat).
Notation fams := (fun k => [(a, cl k); (ext, ce k); (ovf, co k)]).
Definition open (st : heap Qc * list nat) : Prop := (L <= length (fst st))%nat /\ (forall p, mid p -> two (kids (fst st) p)) /\ forall p, In p (snd st) -> (p < length (fst st))%nat /\ pure (kids (fst st) p).
Lemma tree_level_order st k st' : open st -> tree_level n K fams N flow lvl lta [] result st k = Ok st' -> (forall p, mid p -> two (kids (fst st') p)) /\ (k <> K -> open st').
Proof.
  destruct st as [h cur]. intros (V1 & V2 & V3) E. cbn [fst snd] in *. unfold tree_level in E.
  assert (VP : level pure cur h) by (split; [exact V1|]; intros p Hp; split; [intros I; apply V3, I|intros _; apply V2, Hp]).
  destruct (if (k =? K)%nat then _ else _) as [[h1 new]|] eqn:E1; [|discriminate]. cbn [bind] in E.
  assert (X : level pure cur h1 /\ (k <> K -> forall p, In p new -> (p < length h1)%nat /\ pure (kids h1 p) /\ ~ In p cur)).
  { destruct (Nat.eqb_spec k K) as [->|Nk].
    - unfold relink in E1. cbn [length Z.of_nat] in E1. rewrite zrange_nil in E1 by lia. cbn in E1. injection E1 as <- <-. split; [exact VP|congruence].
    - unfold grow in E1. destruct (grow_level _ _ _ _ _ _ _ _ _ _ _ VP E1) as (A & _ & _ & B). split; [exact A|]. intros _. apply B; [intros p []|intros p I; apply V3, I]. }
  destruct X as [X1 X2]. cbn [reroute_fams] in E.
  destruct (reroute _ _ _ a _ h1) as [h2|] eqn:E2; [|discriminate]. cbn [bind] in E.
  destruct (reroute _ _ _ ext _ h2) as [h3|] eqn:E3; [|discriminate]. cbn [bind] in E.
  destruct (reroute _ _ _ ovf _ h3) as [h4|] eqn:E4; [|discriminate]. cbn [bind] in E. injection E as <-.
  destruct (reroute_level pure _ _ _ a _ ltac:(intros l H; apply pure_app; [exact H|congruence|congruence]) _ _ X1 E2) as (Y2 & O2).
  assert (Z2 : level one cur h2) by (destruct Y2 as [A B]; split; [exact A|]; intros p Hp; destruct (B p Hp) as [C D]; split; [intros I; apply pure_one, C, I|exact D]).
  destruct (reroute_level one _ _ _ _ _ one_app _ _ Z2 E3) as (Y3 & O3).
  assert (Z3 : level two cur h3) by (destruct Y3 as [A B]; split; [exact A|]; intros p Hp; destruct (B p Hp) as [C D]; split; [intros I; apply one_two, C, I|exact D]).
  destruct (reroute_level two _ _ _ _ _ two_app _ _ Z3 E4) as (Y4 & O4). cbn [fst snd].
  assert (F : forall p, mid p -> two (kids h4 p)) by (intros p Hp; destruct Y4 as [_ B]; destruct (B p Hp) as [C D]; destruct (in_dec Nat.eq_dec p cur); auto).
  split; [exact F|]. intros Nk. split; [apply Y4|]. split; [exact F|]. cbn [snd]. intros p I. destruct (X2 Nk p I) as (A & B & C). 
  assert (LE : length h4 = length h1).
  { clear - E2 E3 E4. assert (R : forall r off cur t k h h', reroute r off cur t k h = Ok h' -> length h' = length h).
    { intros r off cur0 t c. unfold reroute. generalize (zrange 0 c). induction l as [|j l IH]; intros h h' E; cbn [fold_res] in E; [injection E as <-; reflexivity|]. unfold reroute_step in E at 1. destruct (at_index _ _); [|discriminate]. cbn [bind] in E. rewrite (IH _ _ E), !upd_length. reflexivity. }
    rewrite (R _ _ _ _ _ _ _ E4), (R _ _ _ _ _ _ _ E3), (R _ _ _ _ _ _ _ E2). reflexivity. }
  cbn [fst]. rewrite LE, (O4 p C), (O3 p C), (O2 p C). auto.
Qed.
Lemma levels_order : forall ks st st', (forall k, In k ks -> k <> K) -> open st -> fold_res (tree_level n K fams N flow lvl lta [] result) ks st = Ok st' -> open st'.
Proof.
  induction ks as [|k ks IH]; intros st st' H V E; cbn [fold_res] in E; [injection E as <-; exact V|].
  destruct (tree_level _ _ _ _ _ _ _ _ _ st k) as [st1|] eqn:E1; [|discriminate]. cbn [bind] in E. apply (IH st1 st'); [intros j I; apply H; right; exact I| |exact E].
  apply (tree_level_order st k st1 V E1), H. left. reflexivity.
Qed.
Lemma tree_order h hb r : (0 < K)%nat -> open (h, [a]) -> fold_res (tree_level n K fams N flow lvl lta [] result) (seq 1 K) (h, [a]) = Ok (hb, r) -> forall p, mid p -> two (kids hb p).
Proof.
  intros HK V E. destruct K as [|k] eqn:EK; [lia|]. rewrite seq_S, fold_res_app in E. destruct (fold_res _ (seq 1 k) _) as [st|] eqn:E1; [|discriminate]. cbn [bind fold_res] in E.
  destruct (tree_level _ _ _ _ _ _ _ _ _ st _) as [st1|] eqn:E2; [|discriminate]. cbn [bind] in E. injection E as ->. rewrite <- EK in *.
  change hb with (fst (hb, r)). refine (proj1 (tree_level_order st (1 + k) (hb, r) _ E2)). apply (levels_order (seq 1 k) (h, [a])); [|exact V|exact E1]. intros j I. apply in_seq in I. lia.
Qed.
End Build.
End Order.
