(** The expanded drawing of a network of the search is a network that works. *)
From Verif Require Import Base BaseLemmas Cost CostSpec CostProofs Utils Fractions FractionsProofs Load LoadSpec LoadProofs Tree TreeSpec TreeInv HeapLemmas Search SearchSpec SearchProofs Expand ExpandSpec LevelProofs ExpandProofs
  FrameProofs MergeProofs LocalProofs MergeSafe TraverseSafe Conclude PlantProofs AttachProofs FracProofs ConcludeProofs SearchInit SearchInv SavedSpec SavedProofs FlowSpec FlowProofs FlowMerge FlowOps FlowWalk FlowStart FlowSmall CoverFinal SizeSpec MachineSpec.
From Coq Require Import QArith Qcanon.
Open Scope Z_scope.

(** the list of what is reached *)
Lemma reached_list (outs : nat -> list nat) roots len : (forall x, reached outs roots x -> (x < len)%nat) -> exists nodes, NoDup nodes /\ forall x, In x nodes <-> reached outs roots x.
Proof.
  intros B. assert (G : forall k seen, NoDup seen -> (forall x, In x seen -> reached outs roots x) -> (len <= length seen + k)%nat -> exists nodes, NoDup nodes /\ forall x, In x nodes <-> reached outs roots x).
  - induction k as [|k IH]; intros seen ND R L.
    + exists seen. split; [exact ND|]. intros x. split; [apply R|]. intros Rx. destruct (in_dec Nat.eq_dec x seen) as [I|I]; [exact I|]. exfalso.
      assert (X : (length (x :: seen) <= length (seq 0 len))%nat). { apply NoDup_incl_length; [constructor; assumption|]. intros y [<-|J]; apply in_seq; [specialize (B x Rx)|specialize (B y (R y J))]; lia. }
      rewrite seq_length in X. cbn in X. lia.
    + destruct (find (fun x => if in_dec Nat.eq_dec x seen then false else true) (roots ++ flat_map outs seen)) as [x|] eqn:E.
      * apply find_some in E. destruct E as [I J]. destruct (in_dec Nat.eq_dec x seen) as [|Nx]; [discriminate|]. apply (IH (x :: seen)); [constructor; assumption| |cbn; lia]. intros y [<-|K]; [|apply R, K].
        apply in_app_or in I. destruct I as [I|I]; [apply reached_root, I|]. apply in_flat_map in I. destruct I as (z & Iz & Iy). apply (reached_out _ _ z); [apply R, Iz|exact Iy].
      * exists seen. split; [exact ND|]. intros x. split; [apply R|]. pose proof (find_none _ _ E) as F. assert (F' : forall y, In y (roots ++ flat_map outs seen) -> In y seen) by (intros y Iy; specialize (F y Iy); cbn in F; destruct (in_dec Nat.eq_dec y seen); [assumption|discriminate]).
        induction 1 as [r I|x y _ IHx I]; apply F', in_or_app; [left; exact I|right]. apply in_flat_map. exists x. auto.
  - apply (G len [] (NoDup_nil _)); [intros x []|cbn; lia].
Qed.

(** counting by origin *)
Lemma sum_zero {A} (f : A -> Qc) l : (forall x, In x l -> f x = Q2Qc 0) -> qcsum (map f l) = Q2Qc 0.
Proof. induction l as [|x l IH]; intros H; [reflexivity|]. cbn [map qcsum fold_right]. fold (qcsum (map f l)). rewrite H by (left; reflexivity). rewrite IH by (intros y I; apply H; right; exact I). ring. Qed.
Lemma sum_one (c : Qc) a l : NoDup l -> In a l -> qcsum (map (fun x => if Nat.eq_dec x a then c else Q2Qc 0) l) = c.
Proof.
  induction l as [|x l IH]; intros ND I; [destruct I|]. inversion ND as [|? ? Nx ND']; subst. cbn [map qcsum fold_right]. fold (qcsum (map (fun x => if Nat.eq_dec x a then c else Q2Qc 0) l)). destruct (Nat.eq_dec x a) as [->|Ne].
  - rewrite sum_zero; [ring|]. intros y J. destruct (Nat.eq_dec y a) as [->|]; [contradiction|reflexivity].
  - rewrite IH; [ring|exact ND'|]. destruct I as [->|I]; [congruence|exact I].
Qed.
Lemma sum_add {A} (f g : A -> Qc) l : qcsum (map (fun x => f x + g x)%Qc l) = (qcsum (map f l) + qcsum (map g l))%Qc.
Proof. induction l as [|x l IH]; [cbn; ring|]. unfold qcsum in *. cbn [map fold_right]. rewrite IH. ring. Qed.
Lemma count_sum (f : nat -> Qc) nodes l : NoDup nodes -> (forall x, In x l -> In x nodes) -> qcsum (map (fun x => frac_of_Z (Z.of_nat (cnt x l)) * f x)%Qc nodes) = qcsum (map f l).
Proof.
  intros ND. induction l as [|a l IH]; intros I.
  - apply sum_zero. intros x _. cbn. rewrite foz_0. ring.
  - rewrite (map_ext_in _ (fun x => (if Nat.eq_dec x a then f a else Q2Qc 0) + frac_of_Z (Z.of_nat (cnt x l)) * f x)%Qc).
    + rewrite sum_add, sum_one, IH; [reflexivity|intros x J; apply I; right; exact J|exact ND|apply I; left; reflexivity].
    + intros x _. cbn [count_occ]. destruct (Nat.eq_dec a x) as [->|Ne]; destruct (Nat.eq_dec x _) as [E|E]; try congruence; [|ring]. rewrite Nat2Z.inj_succ, <- Z.add_1_r, foz_plus, foz_1. ring.
Qed.
Lemma count_length nodes (l : list nat) : NoDup nodes -> (forall x, In x l -> In x nodes) -> list_sum (map (fun x => cnt x l) nodes) = length l.
Proof.
  intros ND. induction l as [|a l IH]; intros I.
  - cbn. clear. induction nodes as [|x n IH]; [reflexivity|exact IH].
  - cbn [length]. rewrite <- IH by (intros x J; apply I; right; exact J). specialize (I a (or_introl eq_refl)). clear IH.
    induction nodes as [|x nodes IH]; [destruct I|]. inversion ND as [|? ? Nx ND']; subst. cbn [map list_sum fold_right count_occ]. unfold list_sum in *. destruct (Nat.eq_dec a x) as [->|Ne].
    + cbn [Nat.add]. f_equal. f_equal. f_equal. apply map_ext_in. intros y J. destruct (Nat.eq_dec x y) as [->|]; [contradiction|reflexivity].
    + destruct I as [->|I]; [congruence|]. cbn [count_occ] in IH. rewrite (IH ND' I). lia.
Qed.

Section Final.
Variables (h : heap Z) (t : tree Z) (vals : list Z) (g : heap Qc).
Hypothesis N : network h t vals.
Hypothesis Lv : levelled h t.
Hypothesis Tg : forall a, in_tree h t a -> tagged h a.
Hypothesis Same : forall a, in_tree h t a -> (a < length g)%nat /\ get g a = node_frac (get h a).
Hypothesis Ov : forall a, in_tree h t a -> ~ overloaded h a.
Hypothesis Nt : forall a, in_tree h t a -> ~ torn h a.
Notation H := (start t g).
Notation P := (part h t g).
Notation roots := (t_roots t).

(** nothing of the drawing is left to expand *)
Definition finished (h' : heap Qc) : Prop := forall x, reached (ki h') roots x -> n_expands (get h' x) = [].

Section Works.
Variables (h' : heap Qc) (seen : list nat) (T : nat -> Qc) (B : nat -> nat -> Qc).
Variables (pend : nat -> nat) (total : nat).
Hypothesis F : fg H P roots pend total (fun x => ~ In x seen) (length h') (ki h') (pa h') T B.
Hypothesis Nm : names H P (named_into h) seen h'.
Hypothesis Done : finished h'.

Notation ins := (inside P (length h')).
Notation old := (old H P).
Lemma root_old r : In r roots -> old r.
Proof. intros I. apply (old_in h t g Same). exists r. split; [exact I|constructor]. Qed.
Lemma reached_inside x : reached (ki h') roots x <-> ins x.
Proof.
  split; [|apply (fg_reach _ _ _ _ _ _ _ _ _ _ _ F)]. induction 1 as [r I|x y _ IH I].
  - apply (old_inside H P); [apply (fg_len _ _ _ _ _ _ _ _ _ _ _ F)|apply root_old, I].
  - apply (fg_kids _ _ _ _ _ _ _ _ _ _ _ F x y IH I).
Qed.
Lemma nobody_waits x : ~ waiting H P (fun x => ~ In x seen) x.
Proof.
  intros (O & (u & I & _) & Ns). destruct (nm_tags _ _ _ _ _ Nm x O Ns) as (extra & E & _). rewrite Done in E.
  - destruct (n_expands (get H x)); [destruct I|discriminate].
  - apply reached_inside, (old_inside H P); [apply (fg_len _ _ _ _ _ _ _ _ _ _ _ F)|exact O].
Qed.
Lemma inputs_bound y : ins y -> (length (pars h' y) + cnt y (kids h' y) <= if in_dec Nat.eq_dec y roots then 2 else 3)%nat.
Proof.
  intros Iy. destruct (Nat.lt_ge_cases y (length H)) as [Lo|Hi].
  - assert (O : old y) by (split; [apply Iy|exact Lo]). rewrite (cnt_out y) by (apply (fg_own _ _ _ _ _ _ _ _ _ _ _ F y O)). rewrite Nat.add_0_r. pose proof (st_pars h t g Same y O) as EP.
    pose proof (net_top _ _ _ N y (proj1 (old_in h t g Same y) O)) as Top.
    destruct (in_dec Nat.eq_dec y seen) as [Is|Is].
    + pose proof (nm_done _ _ _ _ _ Nm y O Is) as X. rewrite EP in X. destruct (in_dec Nat.eq_dec y roots) as [Ir|Ir]; destruct (Nat.eqb_spec (length (parents h y)) 0) as [E|E]; try exact X; try lia.
      apply Top in Ir. rewrite Ir in E. cbn in E. lia.
    + destruct (in_dec Nat.eq_dec y roots) as [Ir|Ir].
      * apply Top in Ir. destruct (nm_pars _ _ _ _ _ Nm y O Is) as (f & E).
        { intros x W. destruct (nobody_waits x W). }
        unfold named_into in E. rewrite Ir in E. cbn in E. destruct (pars h' y); [cbn; lia|discriminate].
      * destruct (nm_tags _ _ _ _ _ Nm y O Is) as (extra & _ & _ & _ & [X|X]); [exact X|]. rewrite Done in X; [destruct X|]. apply reached_inside, Iy.
  - assert (No : ~ old y) by (intros (_ & X); lia). destruct (in_dec Nat.eq_dec y roots) as [Ir|Ir]; [exfalso; apply No, root_old, Ir|]. apply (fg_fan _ _ _ _ _ _ _ _ _ _ _ F y Iy No).
Qed.

Lemma all_works : exists nodes, works (ki h') roots (fun r => frac_of_Z (value h r)) nodes T B /\
  Permutation (map T (filter (fun x => match kids h' x with [] => true | _ => false end) nodes)) (map frac_of_Z (t_source_values t)) /\
  (forall M, 1200 <= M -> (forall a, in_tree h t a -> value h a <= M) -> forall x, In x nodes -> (T x <= frac_of_Z M)%Qc) /\
  machines (ki h') roots nodes = total.
Proof.
  destruct (reached_list (ki h') roots (length h')) as (nodes & ND & Nodes); [intros x R; apply reached_inside in R; apply R|].
  assert (IN : forall x, In x nodes <-> ins x) by (intros x; rewrite Nodes; apply reached_inside).
  assert (Cn : forall y, ins y -> forall x, In x nodes -> belts (ki h') x y = cnt x (pars h' y ++ repeat y (cnt y (kids h' y)))).
  { intros y Iy x Ix. apply IN in Ix. unfold belts. rewrite count_occ_app. destruct (Nat.eq_dec x y) as [->|Ne].
    - rewrite cnt_repeat. rewrite (cnt_out y (pars h' y)) by (apply (fg_self _ _ _ _ _ _ _ _ _ _ _ F y Iy)). reflexivity.
    - rewrite cnt_repeat_other by exact Ne. rewrite Nat.add_0_r. apply (fg_links _ _ _ _ _ _ _ _ _ _ _ F x y Ix Iy Ne). }
  assert (Sub : forall y, ins y -> forall x, In x (pars h' y ++ repeat y (cnt y (kids h' y))) -> In x nodes).
  { intros y Iy x I. apply IN. apply in_app_or in I. destruct I as [I|I]; [apply (fg_pars _ _ _ _ _ _ _ _ _ _ _ F y x Iy I)|]. apply repeat_spec in I. subst x. exact Iy. }
  exists nodes. split; [|split; [|split]].
  - constructor.
    + exact ND.
    + exact Nodes.
    + intros y Iy. apply IN in Iy. rewrite (fg_bal _ _ _ _ _ _ _ _ _ _ _ F y Iy).
      rewrite (map_ext_in (fun x => frac_of_Z (Z.of_nat (belts (ki h') x y)) * B x y)%Qc (fun x => frac_of_Z (Z.of_nat (cnt x (pars h' y ++ repeat y (cnt y (kids h' y))))) * B x y)%Qc) by (intros x Ix; rewrite (Cn y Iy x Ix); reflexivity).
      rewrite (count_sum (fun x => B x y) nodes _ ND (Sub y Iy)). rewrite map_app, qcsum_app, qcsum_repeat. unfold input. destruct (in_dec Nat.eq_dec y roots) as [Ir|_]; [rewrite (st_val h t g Same) by (apply root_old, Ir)|]; unfold pa, ki; ring.
    + intros x Ix. apply IN in Ix. destruct (ki h' x) as [|k ks] eqn:E; [left; reflexivity|right]. apply (fg_splits _ _ _ _ _ _ _ _ _ _ _ F x Ix); [apply nobody_waits|rewrite E; discriminate].
    + intros x Ix. apply IN in Ix. apply (fg_pos _ _ _ _ _ _ _ _ _ _ _ F x Ix).
    + intros y Iy. apply IN in Iy. rewrite (map_ext_in _ (fun x => cnt x (pars h' y ++ repeat y (cnt y (kids h' y))))) by (apply (Cn y Iy)). rewrite (count_length nodes _ ND (Sub y Iy)), app_length, repeat_length. apply inputs_bound, Iy.
  - assert (Pm : Permutation (filter (fun x => match kids h' x with [] => true | _ => false end) nodes) (t_sources t)).
    { apply NoDup_Permutation; [apply NoDup_filter, ND|apply (net_open_distinct _ _ _ N)|]. intros x. rewrite filter_In, IN, (net_open _ _ _ N x). split.
      - intros (Ix & E). assert (E' : ki h' x = []) by (unfold ki; destruct (kids h' x); [reflexivity|discriminate]). apply (fg_ends _ _ _ _ _ _ _ _ _ _ _ F x Ix) in E'. destruct E' as (O & E').
        rewrite (st_kids h t g Same) in E' by exact O. split; [apply (old_in h t g Same), O|exact E'].
      - intros (It & E). assert (O : old x) by (apply (old_in h t g Same), It). assert (Ix : ins x) by (apply (old_inside H P); [apply (fg_len _ _ _ _ _ _ _ _ _ _ _ F)|exact O]). split; [exact Ix|].
        assert (E' : ki h' x = []) by (apply (fg_ends _ _ _ _ _ _ _ _ _ _ _ F x Ix); split; [exact O|]; rewrite (st_kids h t g Same) by exact O; exact E). unfold ki in E'. rewrite E'. reflexivity. }
    rewrite Pm, (net_open_values _ _ _ N), map_map. rewrite (map_ext_in T (fun x => frac_of_Z (value h x)) (t_sources t)); [reflexivity|]. intros x I. apply (net_open _ _ _ N) in I. destruct I as (It & E).
    assert (O : old x) by (apply (old_in h t g Same), It). rewrite <- (st_val h t g Same) by exact O. apply (fg_val _ _ _ _ _ _ _ _ _ _ _ F x O). left. intros Hx. pose proof (st_has h t g Tg Same x O Hx) as L. rewrite E in L. cbn in L. lia.
  - intros M B1 B2 x Ix. apply IN in Ix. apply (fg_limit _ _ _ _ _ _ _ _ _ _ _ F); [apply (proj1 (foz_le 1200 M)), B1| |exact Ix]. intros y O. rewrite (st_val h t g Same) by exact O. apply (proj1 (foz_le _ _)). apply B2, (old_in h t g Same), O.
  - assert (X : list_sum (map (at_node roots (ki h') (pa h')) nodes) = total).
    { pose proof (fg_count _ _ _ _ _ _ _ _ _ _ _ F nodes [] ND IN (NoDup_nil _)) as X. cbn [map list_sum fold_right] in X. rewrite Nat.add_0_r in X. apply X. intros x. split; [intros []|]. intros W. destruct (nobody_waits x W). }
    rewrite <- X. unfold machines. f_equal. apply map_ext_in. intros y Iy. apply IN in Iy. unfold at_node. f_equal.
    unfold belts_in. rewrite (map_ext_in _ (fun x => cnt x (pars h' y ++ repeat y (cnt y (kids h' y))))) by (apply (Cn y Iy)). rewrite (count_length nodes _ ND (Sub y Iy)), app_length, repeat_length.
    pose proof (inputs_bound y Iy) as Bd. unfold fan_in, source, ki, pa in *. fold (if in_dec Nat.eq_dec y roots then 1%nat else 0%nat). set (k := (length (pars h' y) + cnt y (kids h' y))%nat) in *.
    assert (K : (k + (if in_dec Nat.eq_dec y roots then 1 else 0) <= 3)%nat) by (destruct (in_dec Nat.eq_dec y roots); lia). revert K. generalize (k + (if in_dec Nat.eq_dec y roots then 1 else 0))%nat. clear. intros n K. do 4 (destruct n as [|n]; [reflexivity|]). lia.
Qed.
End Works.

Lemma network_works : (forall a c, in_tree h t a -> In (TExtract c) (n_expands (get h a)) -> 2 * c < value h a) ->
  exists M h', (forall n, (M <= n)%nat -> expand_roots n H roots = Ok h') /\ (forall a, in_tree h t a -> n_value (get h' a) = frac_of_Z (value h a)) /\
  exists nodes T B, works (ki h') roots (fun r => frac_of_Z (value h r)) nodes T B /\
    Permutation (map T (filter (fun x => match kids h' x with [] => true | _ => false end) nodes)) (map frac_of_Z (t_source_values t)) /\
    (forall M, 1200 <= M -> (forall a, in_tree h t a -> value h a <= M) -> forall x, In x nodes -> (T x <= frac_of_Z M)%Qc) /\
    forall ns, lists_tree h t ns -> machines (ki h') roots nodes = all_machines h t g ns.
Proof.
  intros Half. destruct (reached_list (fun x => children h x) roots (length g)) as (ns & ND & IN).
  { intros x R. assert (I : in_tree h t x); [|apply (Same x I)]. induction R as [r I|x y _ IH I]; [exists r; split; [exact I|constructor]|apply (child_in h t x y IH I)]. }
  assert (LT : lists_tree h t ns).
  { split; [exact ND|]. intros x. rewrite IN. split.
    - intros R. induction R as [r I|x y _ IH I]; [exists r; split; [exact I|constructor]|apply (child_in h t x y IH I)].
    - intros (r & Ir & B). induction B as [r|r b c B IH I]; [apply reached_root, Ir|apply (reached_out _ _ b c); [apply IH, Ir|exact I]]. }
  destruct (network_flow h t vals g N Lv Tg Same ns LT Ov Nt) as (M & h' & seen & E & (T & B & F) & Nm & V). exists M, h'. split; [exact E|]. split.
  - intros a Ia. assert (O : old H P a) by (apply (old_in h t g Same), Ia). rewrite (V a O). apply (st_val h t g Same a O).
  - assert (Done : finished h') by (intros x Rx; apply (covered_reached h t vals g N Lv Tg Same Ov Half M h' (E M (Nat.le_refl _)) x Rx)).
    destruct (all_works h' seen T B _ _ F Nm Done) as (nodes & W1 & W2 & W3 & W4). exists nodes, T, B. split; [exact W1|]. split; [exact W2|]. split; [exact W3|]. intros ns' (ND' & IN'). rewrite W4.
    destruct LT as (_ & IN''). assert (Pm : Permutation ns ns') by (apply NoDup_Permutation; [exact ND|exact ND'|]; intros x; rewrite IN', IN''; reflexivity).
    unfold all_machines. f_equal; apply list_sum_perm, Permutation_map; [exact Pm|]. apply NoDup_Permutation; [apply NoDup_filter, ND|apply NoDup_filter, ND'|]. intros x. rewrite !filter_In, IN', IN''. reflexivity.
Qed.
End Final.

(** ** the first solution *)
Lemma reached_ext outs outs' roots x : (forall y, outs y = outs' y) -> reached outs roots x -> reached outs' roots x.
Proof. intros E. induction 1 as [r I|x y _ IH I]; [apply reached_root, I|]. apply (reached_out _ _ x y IH). rewrite <- E. exact I. Qed.
Lemma hands_on_ext outs outs' T B x : (forall y, outs y = outs' y) -> hands_on outs T B x -> hands_on outs' T B x.
Proof. intros E. apply hands_on_perm; [rewrite E; reflexivity|intros y _; rewrite E; reflexivity]. Qed.
Lemma belts_ext outs outs' x y : (forall y, outs y = outs' y) -> belts outs x y = belts outs' x y.
Proof. intros E. unfold belts. rewrite E. reflexivity. Qed.
Lemma works_ext outs outs' roots inp inp' nodes T B : (forall y, outs y = outs' y) -> (forall r, In r roots -> inp r = inp' r) -> works outs roots inp nodes T B -> works outs' roots inp' nodes T B.
Proof.
  intros E Ei W. assert (E' : forall y, outs' y = outs y) by (intros y; symmetry; apply E). destruct W. constructor.
  - assumption.
  - intros x. rewrite wk_nodes. split; apply reached_ext; assumption.
  - intros y I. rewrite (wk_balance y I). rewrite (map_ext (fun x => frac_of_Z (Z.of_nat (belts outs x y)) * B x y)%Qc (fun x => frac_of_Z (Z.of_nat (belts outs' x y)) * B x y)%Qc) by (intros x; rewrite (belts_ext outs outs') by exact E; reflexivity).
    destruct (in_dec Nat.eq_dec y roots) as [Ir|_]; [rewrite (Ei y Ir)|]; reflexivity.
  - intros x I. rewrite E'. destruct (wk_splits x I) as [X|X]; [left; exact X|right; apply (hands_on_ext outs); assumption].
  - intros x I. rewrite E'. apply wk_positive, I.
  - intros y I. rewrite (map_ext (fun x => belts outs' x y) (fun x => belts outs x y)) by (intros x; apply belts_ext, E'). apply wk_inputs, I.
Qed.

(** the drawing that is saved after the expansion of a network *)
Lemma drawing_works h t vals h0 M : network h t vals -> levelled h t -> (forall a, in_tree h t a -> tagged h a) ->
  (forall a, in_tree h t a -> (a < length h0)%nat /\ get h0 a = node_frac (get h a)) -> (forall a, in_tree h t a -> ~ overloaded h a) ->
  (forall a c, in_tree h t a -> In (TExtract c) (n_expands (get h a)) -> 2 * c < value h a) -> 1200 <= M -> (forall a, in_tree h t a -> value h a <= M) ->
  exists n0 g, (forall n, (n0 <= n)%nat -> expand_roots n (set_levels 0 (t_roots t) h0) (t_roots t) = Ok g) /\
    let g' := set_levels 0 (t_roots t) g in
    (forall x, reached (fun x => n_children (get g' x)) (t_roots t) x -> n_expands (get g' x) = []) /\
    ((forall a, in_tree h t a -> ~ torn h a) -> map (fun r => n_value (get g' r)) (t_roots t) = map frac_of_Z vals /\ delivers g' (t_roots t) (t_source_values t) M).
Proof.
  intros N Lv Tg Sm Ov Hf LM BM. destruct (network_expands h t vals h0 N Lv Tg Sm Ov) as (n0 & g & Eg). exists n0, g. split; [exact Eg|]. cbv zeta.
  assert (Kg : forall x, n_children (get (set_levels 0 (t_roots t) g) x) = ki g x) by (intros x; apply (get_set_levels (@n_children Qc)); reflexivity).
  split.
  - intros x Rx. rewrite (get_set_levels (@n_expands Qc)) by reflexivity. apply (covered_reached h t vals h0 N Lv Tg Sm Ov Hf n0 g (Eg n0 (Nat.le_refl _))). revert Rx. apply reached_ext. exact Kg.
  - intros Nt. destruct (network_works h t vals h0 N Lv Tg Sm Ov Nt Hf) as (n1 & g1 & E1 & Vg & nodes & T & B & W & Pm & Li & _).
    assert (g1 = g) as ->. { pose proof (Eg (Nat.max n0 n1) ltac:(lia)) as X. unfold start in E1. rewrite (E1 (Nat.max n0 n1) ltac:(lia)) in X. congruence. }
    assert (Rg : forall r, In r (t_roots t) -> n_value (get (set_levels 0 (t_roots t) g) r) = frac_of_Z (value h r)).
    { intros r Ir. rewrite (get_set_levels (@n_value Qc)) by reflexivity. apply Vg. exists r. split; [exact Ir|constructor]. }
    split; [rewrite (map_ext_in _ (fun r => frac_of_Z (value h r))) by exact Rg; rewrite <- (net_roots _ _ _ N), map_map; reflexivity|].
    exists nodes, T, B. split; [|split; [|apply (Li M LM BM)]].
    + revert W. apply works_ext; [intros y; symmetry; apply Kg|]. intros r Ir. symmetry. apply Rg, Ir.
    + rewrite <- Pm. apply Permutation_refl'. f_equal. apply filter_ext. intros x. rewrite Kg. reflexivity.
Qed.
Lemma delivers_perm g roots l l' M : Permutation l l' -> delivers g roots l M -> delivers g roots l' M.
Proof. intros P (nodes & T & B & W & Pm & Li). exists nodes, T, B. split; [exact W|]. split; [|exact Li]. rewrite Pm. apply Permutation_map, P. Qed.

Lemma c65_lemma : forall p R fuel t rest concluding, loaded p ->
  let s := snd (solve R fuel p) in
  s_solutions s = t :: rest -> (concluding O = true \/ rest = []) ->
  exists h' t', network h' t' (p_sources p) /\ t_roots t' = t_roots t /\
    (zsum (p_sources p) <= 8 -> forall a, in_tree h' t' a -> ~ overloaded h' a /\ ~ torn h' a) /\
    ((forall a, in_tree h' t' a -> ~ overloaded h' a) ->
      exists n0 g, (forall n, (n0 <= n)%nat -> exists files r,
        conclude n concluding p s = (MkSaved 0 false (map node_frac (set_levels 0 (t_roots t) h')) (t_roots t) :: MkSaved 0 true g (t_roots t) :: files, r)) /\
      (forall x, reached (fun x => n_children (get g x)) (t_roots t) x -> n_expands (get g x) = []) /\
      ((forall a, in_tree h' t' a -> ~ torn h' a) ->
        map (fun r => n_value (get g r)) (t_roots t) = map frac_of_Z (p_sources p) /\
        forall M, 1200 <= M -> (forall a, in_tree h' t' a -> value h' a <= M) -> delivers g (t_roots t) (p_target_integers p) M)).
Proof.
  intros p R fuel t rest concluding L s ES EC. assert (I : In t (s_solutions s)) by (rewrite ES; left; reflexivity).
  pose proof (attached_solutions p R fuel t L I) as A. fold s in A.
  pose proof (iv_count _ _ _ _ _ _ _ _ (proj1 (SearchProofs.run_inv p R fuel L))) as CT. fold s in CT. rewrite ES in CT. cbn [length] in CT.
  unfold conclude. destruct (plant (s_heap s) (p_leaves p)) as [h leaves]. destruct A as (h' & t' & A & B & C & D & E & F1 & F2 & F3 & F4 & _).
  exists h', t'. split; [exact B|]. split; [exact F1|]. split.
  { intros Le a Ia. split; [apply (light_network h' t' (p_sources p) B D F3); [lia|exact Ia]|]. apply (never_torn h' t' (p_sources p) B C D); [|exact Ia]. intros b Ib. specialize (F3 b Ib). lia. }
  intros Ov. assert (Sm : forall a, in_tree h' t' a -> (a < length (map node_frac h'))%nat /\ get (map node_frac h') a = node_frac (get h' a)) by (intros a Ia; apply (get_frac_in h' a (net_alloc _ _ _ B a Ia))).
  assert (Dr : forall M, 1200 <= M -> (forall a, in_tree h' t' a -> value h' a <= M) -> _) by (intros M; apply (drawing_works h' t' (p_sources p) (map node_frac h') M B C D Sm Ov F4)).
  destruct (Dr (Z.max 1200 (zsum (p_sources p)))) as (n0 & g & Eg & Cg & Wg); [lia|intros a Ia; specialize (F3 a Ia); lia|].
  exists (Nat.max n0 (length h)), (set_levels 0 (t_roots t) g). rewrite F1 in *.
  split; [|split; [exact Cg|]].
  - intros n Hn. rewrite ES. cbn [map].
    assert (X : forall conc tl, conc O = true -> exists files r, save_all n conc 0 (map node_frac h) leaves (tree_frac t :: tl) =
      (MkSaved 0 false (map node_frac (set_levels 0 (t_roots t) h')) (t_roots t) :: MkSaved 0 true (set_levels 0 (t_roots t) g) (t_roots t) :: files, r)).
    { intros conc tl Hc. cbn [save_all]. rewrite Hc. cbn [negb]. rewrite A by lia. unfold tree_save, node_save. change (t_roots (tree_frac t')) with (t_roots t'). rewrite F1 in *. rewrite (Eg n) by lia. rewrite set_levels_frac.
      destruct (save_all n conc 1 _ leaves tl) as [files' r'] eqn:ET. cbn [app]. exists files', r'. reflexivity. }
    destruct (s_solutions_count s >? 1) eqn:EG; [destruct EC as [EC| ->]; [|cbn [length] in CT; exfalso; lia]; apply X, EC|apply X; reflexivity].
  - intros Nt. destruct (Wg Nt) as (V & _). split; [exact V|]. intros M LM BM. destruct (Dr M LM BM) as (n1 & g1 & E1 & _ & W1).
    assert (g1 = g) as ->. { pose proof (Eg (Nat.max n0 n1) ltac:(lia)) as X. rewrite (E1 (Nat.max n0 n1) ltac:(lia)) in X. congruence. }
    destruct (W1 Nt) as (_ & De). apply (delivers_perm _ _ _ _ _ E De).
Qed.

(** ** all solutions of a problem with distinct targets *)
Section Distinct.
Variables (hs : heap Z) (vals : list Z) (leaves : list nat) (concluding : nat -> bool) (M : Z) (sols : list (tree Z)).
Hypothesis LM : 1200 <= M.

(** what is known of an expanded drawing *)
Definition shown (f : saved) : Prop := sv_expanded f = true -> exists t, nth_error sols (sv_index f) = Some t /\ sv_roots f = t_roots t /\
  (forall x, reached (fun x => n_children (get (sv_heap f) x)) (t_roots t) x -> n_expands (get (sv_heap f) x) = []) /\
  ((forall a, in_tree hs t a -> ~ torn hs a) -> map (fun r => n_value (get (sv_heap f) r)) (t_roots t) = map frac_of_Z vals /\ delivers (sv_heap f) (t_roots t) (t_source_values t) M).

Lemma save_all_shown : forall todo i h, (forall k t, nth_error todo k = Some t -> nth_error sols (i + k) = Some t) ->
  (forall t, In t todo -> (exists N, wf hs t N /\ t_n_sources t = Z.of_nat (length (t_sources t)) /\ length leaves = length (t_sources t)) /\
    network hs t vals /\ levelled hs t /\
    (forall a, in_tree hs t a -> tagged hs a /\ ~ overloaded hs a /\ value hs a <= M /\ forall c, In (TExtract c) (n_expands (get hs a)) -> 2 * c < value hs a)) ->
  ForallOrdPairs (apart hs) todo -> Forall (intact hs h) todo -> untouched leaves h -> (forall t f, In t todo -> In f leaves -> ~ in_tree hs t f) ->
  exists n0 files h', (forall n, (n0 <= n)%nat -> save_all n concluding i h leaves (map tree_frac todo) = (files, Ok h')) /\ Forall shown files.
Proof.
  induction todo as [|t todo IH]; intros i h Nth Okt Ap In0 Un Ln; [exists 0%nat, [], h; split; [reflexivity|constructor]|]. cbn [map save_all]. destruct (negb (concluding i)) eqn:EC; [exists 0%nat, [], h; split; [reflexivity|constructor]|].
  destruct (Okt t (or_introl eq_refl)) as ((N & W & C1 & C2) & NW & Lv & TO). inversion In0 as [|? ? It Ir]; subst. inversion Ap as [|? ? At Ar]; subst.
  destruct (drawing_works hs t vals h M NW Lv (fun a Ia => proj1 (TO a Ia)) It (fun a Ia => proj1 (proj2 (TO a Ia))) (fun a c Ia => proj2 (proj2 (proj2 (TO a Ia))) c) LM (fun a Ia => proj1 (proj2 (proj2 (TO a Ia))))) as (n0 & g & Eg & Cg & Wg).
  assert (Sv : forall n, (n0 <= n)%nat -> tree_save n i h (tree_frac t) = ([MkSaved i false (set_levels 0 (t_roots t) h) (t_roots t); MkSaved i true (set_levels 0 (t_roots t) g) (t_roots t)], Ok (set_levels 0 (t_roots t) g))).
  { intros n Hn. unfold tree_save, node_save. change (t_roots (tree_frac t)) with (t_roots t). rewrite (Eg n Hn). reflexivity. }
  destruct (save_keeps hs leaves n0 concluding h t N W It Un (fun f I => Ln t f (or_introl eq_refl) I) i _ _ (Sv n0 (Nat.le_refl _))) as [Un' Keep].
  destruct (IH (S i) (set_levels 0 (t_roots t) g)) as (n1 & files & h' & Er & Sh).
  - intros k u Ek. replace (S i + k)%nat with (i + S k)%nat by lia. apply Nth. exact Ek.
  - intros u I. apply Okt. right. exact I.
  - exact Ar.
  - rewrite Forall_forall in *. intros u I. apply Keep; [apply At, I|apply Ir, I].
  - exact Un'.
  - intros u f I. apply Ln. right. exact I.
  - eexists (Nat.max n0 n1), _, h'. split.
    + intros n Hn. rewrite (attach_nothing hs leaves n h t N W It Un C2 C1), (Sv n) by lia. rewrite (Er n) by lia. reflexivity.
    + cbn [app]. constructor; [intros [=]|]. constructor; [|exact Sh]. intros _. exists t. cbn [sv_index sv_roots sv_heap]. split; [rewrite <- (Nat.add_0_r i); apply Nth; reflexivity|]. auto.
Qed.
End Distinct.

Lemma c65_distinct_lemma : forall p R fuel concluding M, loaded p -> NoDup (p_target_integers p) ->
  let s := snd (solve R fuel p) in
  (forall t a, In t (s_solutions s) -> in_tree (s_heap s) t a -> ~ overloaded (s_heap s) a) ->
  1200 <= M -> (forall t a, In t (s_solutions s) -> in_tree (s_heap s) t a -> value (s_heap s) a <= M) ->
  exists n0 files h', (forall n, (n0 <= n)%nat -> conclude n concluding p s = (files, Ok h')) /\
    forall f, In f files -> sv_expanded f = true -> exists t, nth_error (s_solutions s) (sv_index f) = Some t /\ sv_roots f = t_roots t /\
      (forall x, reached (fun x => n_children (get (sv_heap f) x)) (sv_roots f) x -> n_expands (get (sv_heap f) x) = []) /\
      ((forall a, in_tree (s_heap s) t a -> ~ torn (s_heap s) a) ->
        map (fun r => n_value (get (sv_heap f) r)) (sv_roots f) = map frac_of_Z (p_sources p) /\
        delivers (sv_heap f) (sv_roots f) (p_target_integers p) M).
Proof.
  intros p R fuel concluding M L ND s Ov LM BM. pose proof (nodup_targets_ungrouped p L ND) as UG. pose proof (proj1 (SearchProofs.run_inv p R fuel L)) as IV. fold s in IV.
  pose proof (iv_sols _ _ _ _ _ _ _ _ IV) as SL. rewrite Forall_forall in SL.
  assert (GT : forall t, In t (s_solutions s) -> exists N, good p (s_heap s) t N) by (intros t It; apply (run_good p R fuel L t), (SL t It)).
  assert (E1 : p_targets p = map gvalue (p_leaves p) /\ Permutation (flat_map gleaves (p_leaves p)) (p_target_integers p)) by (destruct L as (ss & ts & Ps & Pt & EL); destruct (load_grouped ss ts p Ps Pt EL) as (X1 & _ & _ & _ & X2 & _); auto).
  destruct E1 as (E1 & E2).
  assert (X : forall conc todo, (forall k t, nth_error todo k = Some t -> nth_error (s_solutions s) (0 + k) = Some t) -> ForallOrdPairs (apart (s_heap s)) todo ->
    exists n0 files h', (forall n, (n0 <= n)%nat -> save_all n conc 0 (map node_frac (fst (plant (s_heap s) (p_leaves p)))) (snd (plant (s_heap s) (p_leaves p))) (map tree_frac todo) = (files, Ok h')) /\ Forall (shown (s_heap s) (p_sources p) M (s_solutions s)) files).
  { intros conc todo Nth Ap. assert (Sub : forall t, In t todo -> In t (s_solutions s)) by (intros t It; apply In_nth_error in It; destruct It as (k & It); apply Nth in It; apply (nth_error_In _ _ It)).
    apply save_all_shown; [exact LM|exact Nth| |exact Ap| | |].
    - intros t It. destruct (GT t (Sub t It)) as (N & G). destruct (good_network p (s_heap s) t (ex_intro _ N G)) as (G1 & G2 & G3 & _). split; [|split; [exact G1|split; [exact G2|]]].
      + exists N. split; [apply (gd_wf _ _ _ _ G)|]. split; [apply (gd_count _ _ _ _ G)|].
        unfold plant. cbn [snd]. rewrite starts_length. destruct (SL t (Sub t It)) as (_ & ET & _). rewrite (wf_values _ _ _ (gd_wf _ _ _ _ G)), E1 in ET. apply (f_equal (@length Z)) in ET. rewrite !map_length in ET. congruence.
      + intros a Ia. split; [apply G3, Ia|]. split; [apply (Ov t a (Sub t It) Ia)|]. split; [apply (BM t a (Sub t It) Ia)|apply (iv_half _ _ _ _ _ _ _ _ IV a)].
    - apply Forall_forall. intros t It a Ia. destruct (GT t (Sub t It)) as (N & G). pose proof (gd_wf _ _ _ _ G) as W. apply (wf_in_tree _ _ _ _ W), (wf_bound _ _ _ W) in Ia.
      rewrite map_length, plant_length, get_frac, plant_old by exact Ia. split; [lia|reflexivity].
    - intros x Ix. unfold plant in Ix. cbn [snd] in Ix. apply starts_in in Ix. destruct Ix as (g & Ix). pose proof (placed_top _ [] _ _ _ Ix) as Hp. change (in_forest (s_heap s) (p_leaves p) x g []) in Hp.
      rewrite get_frac, (plant_get _ _ _ _ _ Hp), map_length. split; [|apply (plant_range _ _ _ _ _ Hp)]. cbn. rewrite (UG g); [reflexivity|]. apply tops_in in Ix. apply Ix.
    - intros t x It Ix J. destruct (GT t (Sub t It)) as (N & G). pose proof (gd_wf _ _ _ _ G) as W. apply (wf_in_tree _ _ _ _ W), (wf_bound _ _ _ W) in J.
      unfold plant in Ix. cbn [snd] in Ix. apply starts_ge in Ix. lia. }
  assert (Tv : Permutation (p_targets p) (p_target_integers p)).
  { rewrite E1, <- E2. apply Permutation_refl'. clear -UG. induction (p_leaves p) as [|g l IH]; [reflexivity|]. cbn [map flat_map]. rewrite IH by (intros x J; apply UG; right; exact J). pose proof (UG g (or_introl eq_refl)) as E. destruct g as [v ts [|c cs]]; [reflexivity|discriminate]. }
  assert (Y : exists n0 files h', (forall n, (n0 <= n)%nat -> conclude n concluding p s = (files, Ok h')) /\ Forall (shown (s_heap s) (p_sources p) M (s_solutions s)) files).
  { unfold conclude. destruct (plant (s_heap s) (p_leaves p)) as [h leaves] eqn:EP. cbn [fst snd] in X. destruct (s_solutions_count s >? 1).
    - apply X; [auto|apply (iv_sols_apart _ _ _ _ _ _ _ _ IV)].
    - destruct (s_solutions s) as [|t rest] eqn:ES; [exists 0%nat; eexists; eexists; split; [reflexivity|constructor]|]. cbn [map]. apply (X (fun _ => true) [t]); [|repeat constructor]. intros [|[|k]] u E; try discriminate. exact E. }
  destruct Y as (n0 & files & h' & Ec & Sh). exists n0, files, h'. split; [exact Ec|]. rewrite Forall_forall in Sh. intros f If Ef. destruct (Sh f If Ef) as (t & Et & Er & Tf & Dv). exists t. split; [exact Et|]. split; [exact Er|]. rewrite Er. split; [exact Tf|].
  intros Nt. destruct (Dv Nt) as (V & De). split; [exact V|]. revert De. apply delivers_perm. destruct (SL t (nth_error_In _ _ Et)) as (_ & -> & _). exact Tv.
Qed.

(** ** nothing is left to expand *)
Lemma c66_lemma : forall p R fuel t, loaded p ->
  let s := snd (solve R fuel p) in
  In t (s_solutions s) ->
  let (h, leaves) := plant (s_heap s) (p_leaves p) in
  exists h' t',
    (forall n, (length h <= n)%nat -> attach_leaves n (map node_frac h) (tree_frac t) leaves = Ok (map node_frac h', tree_frac t')) /\
    ((forall a, in_tree h' t' a -> ~ overloaded h' a) -> exists n0 g,
      (forall n, (n0 <= n)%nat -> expand_roots n (map node_frac (set_levels 0 (t_roots t') h')) (t_roots t') = Ok g) /\
      forall x, reached (fun x => n_children (get g x)) (t_roots t') x -> n_expands (get g x) = []).
Proof.
  intros p R fuel t L s I. pose proof (attached_solutions p R fuel t L I) as A. fold s in A.
  destruct (plant (s_heap s) (p_leaves p)) as [h leaves]. destruct A as (h' & t' & A & B & C & D & _ & _ & _ & _ & F4 & _). exists h', t'. split; [exact A|]. intros Ov.
  assert (Sm : forall a, in_tree h' t' a -> (a < length (map node_frac h'))%nat /\ get (map node_frac h') a = node_frac (get h' a)) by (intros a Ia; apply (get_frac_in h' a (net_alloc _ _ _ B a Ia))).
  destruct (network_expands h' t' (p_sources p) _ B C D Sm Ov) as (n0 & g & Eg). exists n0, g. rewrite <- set_levels_frac. split; [exact Eg|].
  apply (covered_reached h' t' (p_sources p) _ B C D Sm Ov F4 n0 g (Eg n0 (Nat.le_refl _))).
Qed.
(** a total that is too small for overloaded nodes and lost belts *)
Lemma c65_small_lemma : forall p R fuel, loaded p -> zsum (p_sources p) <= 8 ->
  let s := snd (solve R fuel p) in
  forall t a, In t (s_solutions s) -> in_tree (s_heap s) t a -> ~ overloaded (s_heap s) a /\ ~ torn (s_heap s) a /\ value (s_heap s) a <= 8.
Proof.
  intros p R fuel L Le s t a It Ia. pose proof (iv_sols _ _ _ _ _ _ _ _ (proj1 (SearchProofs.run_inv p R fuel L))) as SL. rewrite Forall_forall in SL. fold s in SL. destruct (SL t It) as (IE & _).
  destruct (good_network p (s_heap s) t (run_good p R fuel L t IE)) as (G1 & G2 & G3 & _).
  assert (Bd : forall b, in_tree (s_heap s) t b -> value (s_heap s) b <= zsum (p_sources p)) by (intros b Ib; apply (run_bound p R fuel t b L IE Ib)).
  split; [apply (light_network (s_heap s) t _ G1 G3 Bd); [lia|exact Ia]|]. split; [|specialize (Bd a Ia); lia].
  apply (never_torn (s_heap s) t (p_sources p) G1 G2 G3); [|exact Ia]. intros b Ib. specialize (Bd b Ib). lia.
Qed.
