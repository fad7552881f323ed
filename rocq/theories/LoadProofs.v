(** Proofs about group_values and load (C09-C11). *)
From Verif Require Import Base BaseLemmas Cost CostProofs Utils UtilsSpec UtilsProofs Fractions
  FractionsSpec FractionsProofs FormatProofs RoundTripProofs Load LoadSpec.
From Coq Require Import ZifyBool ZifyNat.
Open Scope Z_scope.

Definition has_value (v : Z) (g : gnode) : bool := v =? gvalue g.

Lemma groups_add_map g f ks : NoDup ks -> (forall k, In k ks -> True) ->
  groups_add g (map (fun v => (v, f v)) ks) =
  map (fun v => (v, if v =? gvalue g then f v ++ [g] else f v)) ks
  ++ (if existsb (Z.eqb (gvalue g)) ks then [] else [(gvalue g, [g])]).
Proof.
  intros N _. induction ks as [|k ks IH]; [reflexivity|]. inversion N; subst.
  cbn [map groups_add existsb]. rewrite (Z.eqb_sym (gvalue g) k).
  destruct (Z.eqb_spec k (gvalue g)) as [->|D]; cbn [orb app].
  - f_equal. rewrite app_nil_r. apply map_ext_in. intros v Hv.
    destruct (Z.eqb_spec v (gvalue g)); [subst; contradiction|reflexivity].
  - rewrite IH by assumption. reflexivity.
Qed.

Lemma make_groups_closed l :
  make_groups l = map (fun v => (v, filter (has_value v) l)) (nub Z.eqb (map gvalue l)).
Proof.
  unfold make_groups. induction l as [|g l IH] using rev_ind; [reflexivity|].
  rewrite fold_left_app. cbn [fold_left]. rewrite IH, groups_add_map by
    (auto; apply (nub_nodup _ Z_eq_decides)).
  rewrite map_app. cbn [map]. rewrite nub_snoc by exact Z_eq_decides.
  assert (E : existsb (Z.eqb (gvalue g)) (nub Z.eqb (map gvalue l)) = existsb (Z.eqb (gvalue g)) (map gvalue l)).
  { destruct (existsb (Z.eqb (gvalue g)) (map gvalue l)) eqn:X.
    - apply (existsb_eqb _ Z_eq_decides). apply (existsb_eqb _ Z_eq_decides) in X.
      apply (nub_in _ Z_eq_decides). exact X.
    - apply (existsb_eqb_false _ Z_eq_decides). apply (existsb_eqb_false _ Z_eq_decides) in X.
      rewrite nub_in by exact Z_eq_decides. exact X. }
  rewrite E. destruct (existsb (Z.eqb (gvalue g)) (map gvalue l)) eqn:X.
  - rewrite app_nil_r. apply map_ext. intros v. rewrite filter_app. cbn [filter]. change (has_value v g) with (v =? gvalue g).
    destruct (v =? gvalue g); [reflexivity|]. rewrite app_nil_r. reflexivity.
  - rewrite map_app. f_equal.
    + apply map_ext. intros v. rewrite filter_app. cbn [filter]. change (has_value v g) with (v =? gvalue g).
      destruct (v =? gvalue g); [reflexivity|]. rewrite app_nil_r. reflexivity.
    + cbn [map]. rewrite filter_app. cbn [filter]. replace (has_value (gvalue g) g) with true by (symmetry; apply Z.eqb_refl).
      apply (existsb_eqb_false _ Z_eq_decides) in X.
      assert (F : filter (has_value (gvalue g)) l = []).
      { clear -X. induction l as [|h l IH]; [reflexivity|]. cbn [filter map] in *. change (has_value (gvalue g) h) with (gvalue g =? gvalue h).
        destruct (Z.eqb_spec (gvalue g) (gvalue h)); [exfalso; apply X; left; congruence|].
        apply IH. intros H. apply X. right. exact H. }
      rewrite F. reflexivity.
Qed.

(** splitting a list by a key loses nothing *)
Lemma partition_perm l ks : NoDup ks -> (forall g, In g l -> In (gvalue g) ks) ->
  Permutation (flat_map (fun v => filter (has_value v) l) ks) l.
Proof.
  revert ks. induction l as [|g l IH]; intros ks N H.
  - replace (flat_map _ ks) with (@nil gnode); [constructor|]. clear. induction ks; cbn; auto.
  - destruct (in_split _ _ (H g (or_introl eq_refl))) as (k1 & k2 & ->).
    assert (P : Permutation (flat_map (fun v => filter (has_value v) l) (k1 ++ gvalue g :: k2)) l)
      by (apply IH; auto with datatypes).
    apply NoDup_remove in N. destruct N as [N1 N2].
    assert (D : forall k, ~ In (gvalue g) k ->
      flat_map (fun v => filter (has_value v) (g :: l)) k = flat_map (fun v => filter (has_value v) l) k).
    { intros k Hk. apply flat_map_ext_in'. intros v Hv. cbn [filter]. change (has_value v g) with (v =? gvalue g).
      destruct (Z.eqb_spec v (gvalue g)); [subst; contradiction|reflexivity]. }
    rewrite flat_map_app in *. cbn [flat_map] in *.
    rewrite !D by (intros X; apply N2, in_or_app; auto).
    cbn [filter]. replace (has_value (gvalue g) g) with true by (symmetry; apply Z.eqb_refl). cbn [app].
    rewrite <- P at 2. rewrite Permutation_app_comm. cbn [app]. constructor.
    rewrite Permutation_app_comm. reflexivity.
Qed.

Lemma gleaves_node v t cs : cs <> [] -> gleaves (GNode v t cs) = flat_map gleaves cs.
Proof. destruct cs; [congruence|reflexivity]. Qed.
Lemma ginner_node v t cs : cs <> [] ->
  ginner (GNode v t cs) = (v, Z.of_nat (length cs)) :: flat_map ginner cs.
Proof. destruct cs; [congruence|reflexivity]. Qed.

(** the node made from one group *)
Definition fold_group (g : Z * list gnode) : gnode :=
  let (v, nodes) := g in
  if (1 <? length nodes)%nat
  then GNode (v * Z.of_nat (length nodes))
         (if (3 <? length nodes)%nat then [TDivide (Z.of_nat (length nodes))] else []) nodes
  else hd (GNode 0 [] []) nodes.

(** a group of the current level *)
Definition good_group (g : Z * list gnode) : Prop :=
  0 < fst g /\ snd g <> [] /\ (forall x, In x (snd g) -> gvalue x = fst g) /\ Forall folded (snd g).

Lemma fold_group_folded g : good_group g -> folded (fold_group g).
Proof.
  destruct g as [v nodes]. intros (P & N & V & F). cbn [fst snd] in *. cbn [fold_group].
  rewrite Forall_forall in F.
  destruct (Nat.ltb_spec 1 (length nodes)).
  - apply folded_inner; auto.
  - destruct nodes as [|n0 nodes]; [congruence|]. apply F. left. reflexivity.
Qed.
Lemma fold_group_value g : good_group g -> gvalue (fold_group g) = fst g * Z.of_nat (length (snd g)).
Proof.
  destruct g as [v nodes]. intros (P & N & V & F). cbn [fst snd] in *. cbn [fold_group].
  destruct (Nat.ltb_spec 1 (length nodes)); [reflexivity|].
  destruct nodes as [|n0 [|n1 nodes]]; cbn [length] in *; [congruence| |lia].
  cbn [hd]. rewrite (V n0) by (left; reflexivity). lia.
Qed.
Lemma fold_group_leaves g : good_group g -> gleaves (fold_group g) = flat_map gleaves (snd g).
Proof.
  destruct g as [v nodes]. intros (P & N & V & F). cbn [fst snd] in *. cbn [fold_group].
  destruct (Nat.ltb_spec 1 (length nodes)); [apply gleaves_node; exact N|].
  destruct nodes as [|n0 [|n1 nodes]]; cbn [length] in *; [congruence| |lia].
  cbn. rewrite app_nil_r. reflexivity.
Qed.
Lemma fold_group_inner g : good_group g -> ginner (fold_group g) =
  (if (1 <? length (snd g))%nat then [(fst g * Z.of_nat (length (snd g)), Z.of_nat (length (snd g)))] else [])
  ++ flat_map ginner (snd g).
Proof.
  destruct g as [v nodes]. intros (P & N & V & F). cbn [fst snd] in *. cbn [fold_group].
  destruct (Nat.ltb_spec 1 (length nodes)); [apply ginner_node; exact N|].
  destruct nodes as [|n0 [|n1 nodes]]; cbn [length] in *; [congruence| |lia].
  cbn. rewrite app_nil_r. reflexivity.
Qed.

Lemma total_perm a b t : Permutation a b -> total_divide_cost a t -> total_divide_cost b t.
Proof.
  intros P. revert t. induction P; intros t (cs & F & ->).
  - exists cs. auto.
  - inversion F; subst. destruct (IHP (zsum l'0)) as (cs & F' & E); [exists l'0; auto|].
    exists (y :: cs). split; [constructor; auto|]. rewrite !zsum_cons, E. reflexivity.
  - inversion F as [|? ? ? ? ? F']; subst. inversion F'; subst.
    exists (y1 :: y0 :: l'0). split; [repeat constructor; auto|]. rewrite !zsum_cons. lia.
  - apply IHP2, IHP1. exists cs. auto.
Qed.
Lemma total_app a b s t : total_divide_cost a s -> total_divide_cost b t -> total_divide_cost (a ++ b) (s + t).
Proof. intros (c & F & ->) (d & G & ->). exists (c ++ d). split; [apply Forall2_app; auto|]. rewrite zsum_app. reflexivity. Qed.

Lemma gnode_le_total a b : gnode_le a b = true \/ gnode_le b a = true.
Proof. unfold gnode_le. lia. Qed.
Lemma gnode_le_trans a b c : gnode_le a b = true -> gnode_le b c = true -> gnode_le a c = true.
Proof. unfold gnode_le. lia. Qed.

Lemma group_steps gs : Forall good_group gs -> forall next total,
  exists next' extra, fold_res group_step gs (next, total) = Ok (next', total + extra) /\
    Permutation next' (map fold_group gs ++ next) /\
    (is_sorted gnode_le next -> is_sorted gnode_le next') /\
    total_divide_cost
      (flat_map (fun g => if (1 <? length (snd g))%nat
         then [(fst g * Z.of_nat (length (snd g)), Z.of_nat (length (snd g)))] else []) gs) extra.
Proof.
  induction 1 as [|g gs G Gs IH]; intros next total.
  - exists next, 0. cbn. rewrite Z.add_0_r. repeat split; auto. exists []. split; [constructor|reflexivity].
  - destruct g as [v nodes]. pose proof G as (P & N & V & F). cbn [fst snd] in P, N, V, F.
    assert (ST : exists c, group_step (next, total) (v, nodes)
              = Ok (insort_by gnode_le (fold_group (v, nodes)) next, total + c) /\
              total_divide_cost (if (1 <? length nodes)%nat
               then [(v * Z.of_nat (length nodes), Z.of_nat (length nodes))] else []) c).
    { cbn [group_step fold_group]. destruct (Nat.ltb_spec 1 (length nodes)) as [L|L].
      - destruct (Z.gtb_spec (Z.of_nat (length nodes)) 1); [|lia].
        destruct (Z.ltb_spec (v * Z.of_nat (length nodes)) 0); [nia|].
        destruct (divide_cost_pos (v * Z.of_nat (length nodes)) (Z.of_nat (length nodes))) as (c & E & _);
          [nia|lia|exists v; reflexivity|].
        rewrite E. cbn [bind]. exists c. split.
        + destruct (Nat.ltb_spec 3 (length nodes)), (Z.gtb_spec (Z.of_nat (length nodes)) 3); try lia; reflexivity.
        + exists [c]. split; [repeat constructor; exact E|]. cbn. lia.
      - destruct (Z.gtb_spec (Z.of_nat (length nodes)) 1); [lia|].
        destruct nodes as [|n0 nodes]; [congruence|]. exists 0. rewrite Z.add_0_r. split; [reflexivity|].
        exists []. split; [constructor|reflexivity]. }
    destruct ST as (c & E & T). cbn [fold_res]. rewrite E. cbn [bind].
    destruct (IH (insort_by gnode_le (fold_group (v, nodes)) next) (total + c)) as (next' & extra & E' & Pm & So & T').
    exists next', (c + extra). split; [rewrite E'; do 2 f_equal; lia|]. split.
    + rewrite Pm, insort_perm. cbn [map app]. symmetry. apply Permutation_middle.
    + split; [intros S; apply So, insort_sorted; [exact gnode_le_total|exact gnode_le_trans|exact S]|].
      cbn [flat_map]. apply total_app; auto.
Qed.

(** invariant of one level *)
Definition level_inv (values : list Z) (level : list gnode) (cost : Z) : Prop :=
  is_sorted gnode_le level /\ Forall folded level /\ Forall (fun g => 0 < gvalue g) level /\
  Permutation (flat_map gleaves level) values /\ total_divide_cost (flat_map ginner level) cost.

Lemma flat_map_perm {A B} (f : A -> list B) a b : Permutation a b -> Permutation (flat_map f a) (flat_map f b).
Proof. induction 1; cbn; auto.
  - apply Permutation_app_head. assumption.
  - rewrite !app_assoc. apply Permutation_app_tail, Permutation_app_comm.
  - etransitivity; eassumption. Qed.
Lemma flat_map_map {A B C} (f : B -> list C) (g : A -> B) l : flat_map f (map g l) = flat_map (fun x => f (g x)) l.
Proof. induction l; cbn; congruence. Qed.
Lemma flat_map_flat_map {A B C} (f : B -> list C) (g : A -> list B) l :
  flat_map f (flat_map g l) = flat_map (fun x => flat_map f (g x)) l.
Proof. induction l as [|x l IH]; [reflexivity|]. cbn. rewrite flat_map_app, IH. reflexivity. Qed.
Lemma flat_map_app_perm {A B} (f g : A -> list B) l :
  Permutation (flat_map (fun x => f x ++ g x) l) (flat_map f l ++ flat_map g l).
Proof. induction l as [|x l IH]; [constructor|]. cbn. rewrite IH, <- !app_assoc. apply Permutation_app_head.
  rewrite !app_assoc. apply Permutation_app_tail, Permutation_app_comm. Qed.

Lemma make_groups_good values level cost : level_inv values level cost -> Forall good_group (make_groups level).
Proof.
  intros (_ & F & P & _). rewrite make_groups_closed. apply Forall_forall. intros g Hg.
  apply in_map_iff in Hg. destruct Hg as (v & <- & Hv). rewrite nub_in in Hv by exact Z_eq_decides.
  apply in_map_iff in Hv. destruct Hv as (x & <- & Hx). rewrite Forall_forall in F, P.
  unfold good_group. cbn [fst snd]. split; [auto|]. split.
  - intros E. assert (I : In x (filter (has_value (gvalue x)) level)).
    { apply filter_In. split; [exact Hx|]. apply Z.eqb_refl. }
    rewrite E in I. destruct I.
  - split; [|apply Forall_forall]; intros y Hy; apply filter_In in Hy; destruct Hy as [Hy E]; auto.
    unfold has_value in E. lia.
Qed.

Lemma make_groups_perm level : Permutation (flat_map snd (make_groups level)) level.
Proof.
  rewrite make_groups_closed, flat_map_map. cbn [snd]. apply partition_perm.
  - apply nub_nodup, Z_eq_decides.
  - intros g Hg. apply nub_in; [exact Z_eq_decides|]. apply in_map. exact Hg.
Qed.

Lemma level_step values level cost : level_inv values level cost ->
  exists next cost', fold_res group_step (make_groups level) ([], cost) = Ok (next, cost') /\
    length next = length (nub Z.eqb (map gvalue level)) /\ level_inv values next cost'.
Proof.
  intros I. pose proof (make_groups_good _ _ _ I) as G. destruct I as (S & F & Ps & Pm & T).
  destruct (group_steps _ G [] cost) as (next & extra & E & P & So & T'). rewrite app_nil_r in P.
  exists next, (cost + extra). split; [exact E|]. split.
  { rewrite (Permutation_length P), make_groups_closed, !map_length. reflexivity. }
  split; [apply So; constructor|]. rewrite Forall_forall in G.
  assert (X : forall x, In x next -> exists g, good_group g /\ x = fold_group g).
  { intros x Hx. apply (Permutation_in _ P) in Hx. apply in_map_iff in Hx. destruct Hx as (g & <- & Hg). eauto. }
  split; [apply Forall_forall; intros x Hx; destruct (X x Hx) as (g & Gg & ->); apply fold_group_folded, Gg|].
  split.
  { apply Forall_forall. intros x Hx. destruct (X x Hx) as (g & Gg & ->). rewrite fold_group_value by exact Gg.
    destruct g as [v nodes]. destruct Gg as (Pv & Nn & _). cbn [fst snd] in *. destruct nodes; [congruence|]. cbn [length]. nia. }
  split.
  - rewrite (flat_map_perm gleaves _ _ P), flat_map_map.
    rewrite (flat_map_ext_in' _ (fun g => flat_map gleaves (snd g))) by (intros; apply fold_group_leaves; auto).
    rewrite <- flat_map_flat_map. rewrite (flat_map_perm gleaves _ _ (make_groups_perm level)). exact Pm.
  - eapply total_perm; [apply Permutation_sym, (flat_map_perm ginner _ _ P)|]. rewrite flat_map_map.
    rewrite (flat_map_ext_in' _ (fun g => (if (1 <? length (snd g))%nat
         then [(fst g * Z.of_nat (length (snd g)), Z.of_nat (length (snd g)))] else []) ++ flat_map ginner (snd g)))
      by (intros; apply fold_group_inner; auto).
    eapply total_perm; [apply Permutation_sym, flat_map_app_perm|].
    rewrite Z.add_comm. apply total_app; [exact T'|].
    rewrite <- flat_map_flat_map.
    eapply total_perm; [apply Permutation_sym, (flat_map_perm ginner _ _ (make_groups_perm level))|exact T].
Qed.

Lemma nub_length {A} (eqb : A -> A -> bool) (Heq : eq_decides eqb) l :
  (length (nub eqb l) <= length l)%nat /\ (length (nub eqb l) = length l -> NoDup l).
Proof.
  assert (L : (length (nub eqb l) <= length l)%nat).
  { apply NoDup_incl_length; [apply nub_nodup, Heq|]. intros x. apply nub_in, Heq. }
  split; [exact L|]. intros E. apply (@NoDup_incl_NoDup A (nub eqb l)).
  - apply nub_nodup, Heq.
  - lia.
  - intros x Hx. apply nub_in in Hx; [exact Hx|exact Heq].
Qed.

Lemma group_loop_spec values : forall fuel level cost, (length level < fuel)%nat -> level_inv values level cost ->
  exists roots cost', group_loop fuel level cost = Ok (roots, cost') /\ level_inv values roots cost' /\
    NoDup (map gvalue roots).
Proof.
  induction fuel as [|fuel IH]; intros level cost L I; [lia|]. cbn [group_loop].
  destruct (level_step _ _ _ I) as (next & cost' & E & Len & I'). rewrite E. cbn [bind].
  destruct (nub_length Z.eqb Z_eq_decides (map gvalue level)) as [Le Eq]. rewrite map_length in Le, Eq.
  destruct (Nat.eqb_spec (length next) (length level)) as [El|Nl].
  - exists level, cost'. split; [reflexivity|]. assert (N : NoDup (map gvalue level)) by (apply Eq; lia).
    split; [|exact N].
    destruct I as (S & F & P & Pm & T). repeat split; auto.
    (* no group of several nodes: the cost did not change *)
    assert (X : cost' = cost); [|subst; exact T].
    assert (Y : forall gs next0 total next1 total1, Forall (fun g => length (snd g) = 1%nat) gs ->
      fold_res group_step gs (next0, total) = Ok (next1, total1) -> total1 = total).
    { clear. induction gs as [|[v nodes] gs IH]; intros next0 total next1 total1 F H; [cbn in H; congruence|].
      inversion F; subst. cbn [fold_res] in H. destruct nodes as [|n0 [|n1 nodes]]; cbn [snd length] in *; try lia.
      cbn in H. eapply IH; eauto. }
    eapply Y; [|exact E]. rewrite make_groups_closed. apply Forall_forall. intros g Hg. apply in_map_iff in Hg.
    destruct Hg as (v & <- & Hv). cbn [snd]. rewrite nub_in in Hv by exact Z_eq_decides.
    clear -N Hv. induction level as [|g level IH]; [destruct Hv|]. cbn [map] in *. inversion N; subst. cbn [filter].
    change (has_value v g) with (v =? gvalue g). destruct (Z.eqb_spec v (gvalue g)) as [->|D].
    + cbn [length]. f_equal. destruct (filter (has_value (gvalue g)) level) as [|x r] eqn:Ex; [reflexivity|].
      exfalso. assert (In x (filter (has_value (gvalue g)) level)) as Hx by (rewrite Ex; left; reflexivity).
      apply filter_In in Hx. destruct Hx as [Hx Vx]. unfold has_value in Vx. apply Z.eqb_eq in Vx.
      apply H1. rewrite Vx. apply in_map. exact Hx.
    + apply IH; auto. destruct Hv; [congruence|assumption].
  - apply IH; [lia|exact I'].
Qed.

Lemma map_new_leaf l : Forall (fun v => 0 < v) l -> map_res new_leaf l = Ok (map (fun v => GNode v [] []) l).
Proof. induction 1 as [|v l H F IH]; [reflexivity|]. cbn [map_res map]. unfold new_leaf at 1.
  destruct (Z.ltb_spec v 0); [lia|]. cbn [bind]. rewrite IH. reflexivity. Qed.

Lemma folded_sum g : folded g -> gvalue g = zsum (gleaves g).
Proof.
  induction 1 as [v|w cs L V F IH]; [cbn; lia|].
  rewrite gleaves_node by (intros ->; cbn in L; lia). cbn [gvalue].
  assert (X : forall l, incl l cs -> zsum (flat_map gleaves l) = w * Z.of_nat (length l)).
  { induction l as [|c l IHl]; intros I; [cbn; lia|]. cbn [flat_map length]. rewrite zsum_app, IHl by
      (intros y Hy; apply I; right; exact Hy). rewrite <- (IH c), (V c) by (apply I; left; reflexivity). lia. }
  symmetry. apply X. apply incl_refl.
Qed.
Lemma forest_sum l : Forall folded l -> zsum (map gvalue l) = zsum (flat_map gleaves l).
Proof. induction 1 as [|g l H F IH]; [reflexivity|]. cbn [map flat_map]. rewrite zsum_cons, zsum_app, IH, (folded_sum g H). reflexivity. Qed.

Lemma strictly_sorted l : is_sorted gnode_le l -> NoDup (map gvalue l) -> StronglySorted Z.lt (map gvalue l).
Proof. induction 1 as [|g l S IH F]; intros N; [constructor|]. cbn [map] in *. inversion N; subst.
  constructor; [auto|]. apply Forall_forall. intros v Hv. pose proof Hv as Hv'. apply in_map_iff in Hv.
  destruct Hv as (h & <- & Hh). rewrite Forall_forall in F. specialize (F h Hh). unfold gnode_le in F.
  assert (gvalue g <> gvalue h) by (intros E; apply H1; rewrite E; exact Hv'). lia. Qed.

Lemma group_values_spec : forall values, Forall (fun v => 0 < v) values ->
  exists roots cost, group_values values = Ok (roots, cost) /\
    StronglySorted Z.lt (map gvalue roots) /\
    zsum (map gvalue roots) = zsum values /\
    Forall folded roots /\
    Permutation (flat_map gleaves roots) values /\
    total_divide_cost (flat_map ginner roots) cost.
Proof.
  intros values P. unfold group_values.
  assert (P' : Forall (fun v => 0 < v) (zsorted values)).
  { apply Forall_forall. intros v Hv. rewrite Forall_forall in P. apply P.
    apply (Permutation_in _ (sorted_by_perm Z.leb values)). exact Hv. }
  rewrite map_new_leaf by exact P'. cbn [bind].
  destruct (group_loop_spec values (S (length values)) (map (fun v => GNode v [] []) (zsorted values)) 0)
    as (roots & cost & E & (S & F & _ & Pm & T) & N).
  - unfold zsorted. rewrite map_length, (Permutation_length (sorted_by_perm Z.leb values)). lia.
  - repeat split.
    + pose proof (sorted_by_sorted Z.leb Zleb_total Zleb_trans values) as S. fold (zsorted values) in S.
      induction S as [|v l S IH F]; [constructor|]. cbn [map]. inversion P'; subst. constructor; [apply IH; assumption|].
      apply Forall_forall. intros g Hg. apply in_map_iff in Hg. destruct Hg as (u & <- & Hu).
      rewrite Forall_forall in F. apply (F u Hu).
    + apply Forall_forall. intros g Hg. apply in_map_iff in Hg. destruct Hg as (u & <- & Hu). constructor.
    + apply Forall_forall. intros g Hg. apply in_map_iff in Hg. destruct Hg as (u & <- & Hu).
      rewrite Forall_forall in P'. apply (P' u Hu).
    + rewrite flat_map_map. cbn. replace (flat_map (fun x => [x]) (zsorted values)) with (zsorted values).
      * apply sorted_by_perm.
      * generalize (zsorted values). clear. induction l; cbn; congruence.
    + rewrite flat_map_map. cbn. replace (flat_map _ _) with (@nil (Z * Z)); [exists []; split; [constructor|reflexivity]|].
      generalize (zsorted values). clear. induction l; cbn; auto.
  - exists roots, cost. split; [exact E|]. split; [apply strictly_sorted; assumption|].
    split; [rewrite forest_sum by exact F; apply zsum_perm; exact Pm|]. auto.
Qed.

(** ** load *)
Lemma frac_leb_le a b : frac_leb a b = true <-> (a <= b)%Qc.
Proof. unfold frac_leb, Qcle. apply Qle_bool_iff. Qed.
Lemma frac_leb_total a b : frac_leb a b = true \/ frac_leb b a = true.
Proof. rewrite !frac_leb_le. destruct (Qclt_le_dec a b); [left; apply Qclt_le_weak; assumption|right; assumption]. Qed.
Lemma frac_leb_trans a b c : frac_leb a b = true -> frac_leb b c = true -> frac_leb a c = true.
Proof. rewrite !frac_leb_le. apply Qcle_trans. Qed.

Lemma qsum_app a b : qsum (a ++ b) = (qsum a + qsum b)%Qc.
Proof. induction a as [|x a IH]; [change (qsum ([] ++ b)) with (qsum b); change (qsum []) with (Q2Qc 0); ring|].
  change (qsum ((x :: a) ++ b)) with (x + qsum (a ++ b))%Qc. change (qsum (x :: a)) with (x + qsum a)%Qc. rewrite IH. ring. Qed.
Lemma qsum_perm a b : Permutation a b -> qsum a = qsum b.
Proof. induction 1; try congruence.
  - change (qsum (x :: l)) with (x + qsum l)%Qc. change (qsum (x :: l')) with (x + qsum l')%Qc. congruence.
  - change (qsum (x :: y :: l)) with (x + (y + qsum l))%Qc. change (qsum (y :: x :: l)) with (y + (x + qsum l))%Qc. ring. Qed.
Lemma frac_sum_qsum l : frac_sum l = qsum l.
Proof.
  assert (H : forall l a, fold_left Qcplus l a = (a + qsum l)%Qc).
  { induction l0 as [|x l0 IH]; intros a; cbn [fold_left]; [change (qsum []) with (Q2Qc 0); ring|]. rewrite IH.
    change (qsum (x :: l0)) with (x + qsum l0)%Qc. ring. }
  unfold frac_sum. rewrite H. change (frac_of_Z 0) with (Q2Qc 0). ring.
Qed.

Lemma negb_leb_lt a b : negb (frac_leb a b) = true <-> (b < a)%Qc.
Proof. rewrite negb_true_iff. rewrite <- not_true_iff_false, frac_leb_le. split.
  - apply Qcnot_le_lt.
  - apply Qclt_not_le. Qed.

Lemma balance_spec ss ts :
  let (s, t) := balance ss ts in
  is_sorted frac_leb s /\ is_sorted frac_leb t /\ qsum s = qsum t /\
  exists es et, Permutation (ss ++ es) s /\ Permutation (ts ++ et) t /\
    ((es = [] /\ et = [] /\ qsum ss = qsum ts) \/
     (exists d, (0 < d)%Qc /\ es = [d] /\ et = [] /\ (qsum ss + d)%Qc = qsum ts) \/
     (exists d, (0 < d)%Qc /\ es = [] /\ et = [d] /\ qsum ss = (qsum ts + d)%Qc)).
Proof.
  unfold balance. rewrite !frac_sum_qsum.
  pose proof (sorted_by_perm frac_leb ss) as Ps. pose proof (sorted_by_perm frac_leb ts) as Pt.
  pose proof (sorted_by_sorted frac_leb frac_leb_total frac_leb_trans ss) as Ss.
  pose proof (sorted_by_sorted frac_leb frac_leb_total frac_leb_trans ts) as St.
  rewrite (qsum_perm _ _ Ps), (qsum_perm _ _ Pt).
  assert (IP : forall d l l', Permutation l l' -> Permutation (l' ++ [d]) (insort_by frac_leb d l)).
  { intros d l l' P. rewrite insort_perm, P. apply Permutation_sym, Permutation_cons_append. }
  destruct (negb (frac_leb (qsum ts) (qsum ss))) eqn:E1; [apply negb_leb_lt in E1|].
  - assert (D : (0 < qsum ts - qsum ss)%Qc).
    { apply Qclt_minus_iff in E1. exact E1. }
    split; [apply insort_sorted; [exact frac_leb_total|exact frac_leb_trans|exact Ss]|]. split; [exact St|].
    split; [rewrite (qsum_perm _ _ (insort_perm _ _ _)), (qsum_perm _ _ Pt); match goal with |- qsum (?d :: ?l) = _ => change (qsum (d :: l)) with (d + qsum l)%Qc end; rewrite (qsum_perm _ _ Ps); ring|].
    exists [(qsum ts - qsum ss)%Qc], []. rewrite app_nil_r. split; [apply IP; exact Ps|].
    split; [apply Permutation_sym; exact Pt|]. right. left. eexists. split; [exact D|]. split; [reflexivity|].
    split; [reflexivity|]. ring.
  - apply negb_false_iff, frac_leb_le in E1.
    destruct (negb (frac_leb (qsum ss) (qsum ts))) eqn:E2; [apply negb_leb_lt in E2|].
    + assert (D : (0 < qsum ss - qsum ts)%Qc).
      { apply Qclt_minus_iff in E2. exact E2. }
      split; [exact Ss|]. split; [apply insort_sorted; [exact frac_leb_total|exact frac_leb_trans|exact St]|].
      split; [rewrite (qsum_perm _ _ (insort_perm _ _ _)), (qsum_perm _ _ Ps); match goal with |- _ = qsum (?d :: ?l) => change (qsum (d :: l)) with (d + qsum l)%Qc end; rewrite (qsum_perm _ _ Pt); ring|].
      exists [], [(qsum ss - qsum ts)%Qc]. rewrite app_nil_r. split; [apply Permutation_sym; exact Ps|].
      split; [apply IP; exact Pt|]. right. right. eexists. split; [exact D|]. split; [reflexivity|].
      split; [reflexivity|]. ring.
    + apply negb_false_iff, frac_leb_le in E2.
      assert (Q : qsum ss = qsum ts) by (apply Qcle_antisym; assumption).
      split; [exact Ss|]. split; [exact St|].
      split; [rewrite (qsum_perm _ _ Ps), (qsum_perm _ _ Pt); exact Q|].
      exists [], []. rewrite !app_nil_r. split; [apply Permutation_sym; exact Ps|].
      split; [apply Permutation_sym; exact Pt|]. left. auto.
Qed.

(** the loop of best_size_upper_bond *)
Lemma upper_loop_ok ts : forall r, StronglySorted Z.lt ts -> Forall (fun v => 0 < v) ts ->
  2 < last ts 3 -> exists r', upper_loop ts (zsum ts) r = Ok r' /\ r <= r'.
Proof.
  induction ts as [|t ts IH]; intros r S P L; [exists r; cbn; split; [reflexivity|lia]|].
  inversion S as [|? ? S1 F]; inversion P as [|? ? P0 P1]; subst. rewrite zsum_cons. cbn [upper_loop].
  destruct ts as [|t2 ts].
  - cbn [last] in L. cbn [zsum fold_right]. rewrite Z.add_0_r. unfold extract_cost.
    destruct (Z.leb_spec t 2); [lia|]. rewrite Z.eqb_refl, orb_true_r. cbn. exists (r + 0). split; [reflexivity|lia].
  - assert (Z : 0 < zsum (t2 :: ts)).
    { inversion P1 as [|? ? P2 P3]; subst. rewrite zsum_cons. assert (0 <= zsum ts); [|lia].
      clear -P3. induction P3 as [|x l H F IH]; [cbn; lia|]. rewrite zsum_cons. lia. }
    assert (T2 : t < t2) by (inversion F; assumption).
    inversion P1 as [|? ? P2 P3]; subst.
    assert (Z2 : t2 <= zsum (t2 :: ts)).
    { rewrite zsum_cons. assert (0 <= zsum ts); [|lia].
      clear -P3. induction P3 as [|x l H F IH]; [cbn; lia|]. rewrite zsum_cons. lia. }
    destruct (extract_cost_pos (t + zsum (t2 :: ts)) t) as (c & E & C); [lia|lia|].
    rewrite E. cbn [bind]. replace (t + zsum (t2 :: ts) - t) with (zsum (t2 :: ts)) by lia.
    destruct (IH (r + c) S1 P1) as (r' & E' & R); [exact L|]. exists r'. split; [exact E'|lia].
Qed.

Lemma zsum_nonneg l : Forall (fun v => 0 < v) l -> 0 <= zsum l.
Proof. induction 1 as [|x l H F IH]; [cbn; lia|]. rewrite zsum_cons. lia. Qed.

Lemma small_sorted T : Forall (fun v => 0 < v) T -> StronglySorted Z.le T -> zsum T <= 3 ->
  T = [] \/ T = [1] \/ T = [2] \/ T = [1; 1] \/ T = [3] \/ T = [1; 2] \/ T = [1; 1; 1].
Proof.
  intros P S L. destruct T as [|a [|b [|c [|d T]]]].
  - auto.
  - inversion P; subst. cbn in L. assert (a = 1 \/ a = 2 \/ a = 3) as [->|[->| ->]] by lia; auto 10.
  - inversion P as [|? ? P1 P2]; subst. inversion P2; subst. inversion S as [|? ? S1 F]; subst. inversion F; subst.
    cbn in L. assert ((a = 1 /\ b = 1) \/ (a = 1 /\ b = 2)) as [[-> ->]|[-> ->]] by lia; auto 10.
  - inversion P as [|? ? P1 P2]; subst. inversion P2 as [|? ? P3 P4]; subst. inversion P4; subst.
    cbn in L. assert (a = 1 /\ b = 1 /\ c = 1) as (-> & -> & ->) by lia. auto 10.
  - inversion P as [|? ? P1 P2]; subst. inversion P2 as [|? ? P3 P4]; subst. inversion P4 as [|? ? P5 P6]; subst.
    inversion P6 as [|? ? P7 P8]; subst. pose proof (zsum_nonneg _ P8). cbn in L. fold (zsum T) in L. lia.
Qed.

Lemma last_big ts : StronglySorted Z.lt ts -> Forall (fun v => 0 < v) ts -> 4 <= zsum ts -> 2 < last ts 3.
Proof.
  intros S P L. destruct ts as [|a [|b [|c ts]]]; [cbn; lia| | |].
  - cbn in *. lia.
  - inversion S as [|? ? S1 F]; subst. inversion F; subst. cbn in *. lia.
  - inversion P as [|? ? P1 P2]; subst. inversion S as [|? ? S1 F]; subst. inversion F as [|? ? F1 F2]; subst.
    inversion S1 as [|? ? S2 G]; subst. inversion G; subst.
    assert (X : forall l d, StronglySorted Z.lt (c :: l) -> c <= last (c :: l) d).
    { clear. intros l. revert c. induction l as [|x l IH]; intros c d S; [cbn; lia|].
      inversion S as [|? ? S1 F]; subst. inversion F; subst. specialize (IH x d S1). cbn [last] in *. lia. }
    specialize (X ts 3 S2). cbn [last] in *. lia.
Qed.

Lemma forall2_scaled_pos fs zs u : 0 < u -> Forall (fun f => (0 < f)%Qc) fs ->
  Forall2 (fun f z => scaled_is f u z) fs zs -> Forall (fun z => 0 < z) zs.
Proof.
  intros U P F. induction F as [|f z fs zs H F IH]; [constructor|]. inversion P as [|? ? Pf Pfs]; subst. constructor; [|auto].
  apply scaled_is_iff in H. pose proof (denom_pos f). unfold Qclt, Qlt in Pf. cbn in Pf.
  fold (numer f) in Pf. nia.
Qed.
Lemma forall2_scaled_sorted fs zs u : 0 < u -> is_sorted frac_leb fs ->
  Forall2 (fun f z => scaled_is f u z) fs zs -> StronglySorted Z.le zs.
Proof.
  intros U S F. revert S. induction F as [|f z fs zs H F IH]; intros S; [constructor|].
  inversion S as [|? ? S1 G]; subst. constructor; [auto|]. apply Forall_forall. intros y Hy.
  assert (exists g, In g fs /\ scaled_is g u y) as (g & Ig & Sg).
  { clear -F Hy. induction F; [destruct Hy|]. destruct Hy as [->|Hy]; [eexists; split; [left; reflexivity|assumption]|].
    destruct (IHF Hy) as (g & I & S). exists g. split; [right|]; assumption. }
  rewrite Forall_forall in G. specialize (G g Ig). apply frac_leb_le in G.
  unfold scaled_is in H, Sg. unfold Qcle in G.
  assert (X : (inject_Z z <= inject_Z y)%Q).
  { rewrite <- H, <- Sg. apply Qmult_le_compat_r; [exact G|]. unfold Qle. cbn. lia. }
  unfold Qle in X. cbn in X. lia.
Qed.
Lemma forall2_scaled_sum fs zs u : Forall2 (fun f z => scaled_is f u z) fs zs ->
  (this (qsum fs) * inject_Z u == inject_Z (zsum zs))%Q.
Proof.
  induction 1 as [|f z fs zs H F IH]; [cbn; reflexivity|]. rewrite zsum_cons.
  change (qsum (f :: fs)) with (f + qsum fs)%Qc. unfold scaled_is in H. rewrite this_plus, inject_Z_plus, <- IH, <- H. ring.
Qed.
Lemma forall2_in_l {A B} (R : A -> B -> Prop) l l' y : Forall2 R l l' -> In y l' -> exists x, In x l /\ R x y.
Proof. induction 1 as [|a b l l' H F IH]; intros I; [destruct I|]. destruct I as [->|I]; [exists a; split; [left; reflexivity|exact H]|].
  destruct (IH I) as (x & Ix & Rx). exists x. split; [right|]; assumption. Qed.

Lemma fold_gcd_ok x l : exists g, compute_gcd (x :: l) = Ok g.
Proof. eexists. reflexivity. Qed.

Theorem load_values_spec : forall ss ts,
  Forall (fun f => (0 < f)%Qc) ss -> Forall (fun f => (0 < f)%Qc) ts -> ss <> [] -> ts <> [] ->
  exists u S T, reduced ss ts u S T /\
    Forall (fun v => 0 < v) S /\ Forall (fun v => 0 < v) T /\ zsum S = zsum T /\
    (S = [] -> load_values ss ts = Ok None) /\
    (S <> [] -> too_small T -> load_values ss ts = Err ValueError) /\
    (S <> [] -> ~ too_small T -> exists p, load_values ss ts = Ok (Some p) /\
       p_unit_flow_ratio p = u /\ p_sources p = S /\ p_target_integers p = T /\
       group_values T = Ok (p_leaves p, p_size_offset p) /\
       p_targets p = map gvalue (p_leaves p) /\
       (exists b, best_size_upper_bond S (p_targets p) = Ok b /\ 0 <= b /\ p_initial_best_size p = b + p_size_offset p) /\
       zmin (p_targets p) = Some (p_min_target p) /\
       p_target_counts p = count_values (p_targets p) /\
       compute_gcd (S ++ p_targets p) = Ok (p_gcd p) /\
       exists fs ft a b, Forall2 (fun f z => scaled_is f u z) fs S /\ Forall2 (fun f z => scaled_is f u z) ft T /\
         format_fractions fs = Ok a /\ format_fractions ft = Ok b /\
         p_problem_str p = a ++ [space; letter_t; letter_o; space] ++ b).
Proof.
  intros ss ts Ps Pt Ns Nt.
  pose proof (balance_spec ss ts) as B. unfold load_values. destruct (balance ss ts) as [s t] eqn:EB.
  destruct B as (Ss & St & Sum & es & et & Pes & Pet & Cases).
  destruct (remove_pairs_perm frac_eqb frac_eq_decides s t) as (common & P1 & P2).
  pose proof (remove_pairs_disjoint frac_eqb frac_eq_decides s t) as Dis.
  destruct (remove_pairs_sorted frac_eqb frac_eq_decides (fun a b => frac_leb a b = true) s t) as [So1 So2].
  { intros x. apply frac_leb_le, Qcle_refl. }
  specialize (So1 Ss). specialize (So2 St).
  destruct (remove_pairs frac_eqb s t) as [fs ft] eqn:ER. cbn [fst snd] in *.
  pose proof (fractions_to_integers_spec (fs ++ ft)) as FI.
  destruct (fractions_to_integers (fs ++ ft)) as [zs u] eqn:EF. destruct FI as (U & F2 & Least).
  apply Forall2_app_inv_l in F2. destruct F2 as (S & T & FS & FT & ->).
  assert (LS : length fs = length S) by (clear -FS; induction FS; cbn; congruence).
  rewrite LS, firstn_app, skipn_app, Nat.sub_diag, firstn_all, skipn_all, firstn_O, skipn_O, app_nil_r. cbn [app].
  assert (PosAll : Forall (fun f => (0 < f)%Qc) (ss ++ es) /\ Forall (fun f => (0 < f)%Qc) (ts ++ et)).
  { destruct Cases as [(-> & -> & _)|[(d & Pd & -> & -> & _)|(d & Pd & -> & -> & _)]]; rewrite ?app_nil_r;
    split; rewrite ?Forall_app; auto. }
  destruct PosAll as [PA1 PA2].
  assert (Pfs : Forall (fun f => (0 < f)%Qc) fs).
  { apply Forall_forall. intros f Hf. rewrite Forall_forall in PA1. apply PA1.
    apply (Permutation_in _ (Permutation_sym Pes)), (Permutation_in _ (Permutation_sym P1)), in_or_app. left. exact Hf. }
  assert (Pft : Forall (fun f => (0 < f)%Qc) ft).
  { apply Forall_forall. intros f Hf. rewrite Forall_forall in PA2. apply PA2.
    apply (Permutation_in _ (Permutation_sym Pet)), (Permutation_in _ (Permutation_sym P2)), in_or_app. left. exact Hf. }
  pose proof (forall2_scaled_pos _ _ _ U Pfs FS) as PS. pose proof (forall2_scaled_pos _ _ _ U Pft FT) as PT.
  assert (SumF : qsum fs = qsum ft).
  { rewrite (qsum_perm _ _ P1), (qsum_perm _ _ P2), !qsum_app in Sum.
    apply (f_equal (fun x => (x - qsum common)%Qc)) in Sum. ring_simplify in Sum. exact Sum. }
  assert (SumZ : zsum S = zsum T).
  { pose proof (forall2_scaled_sum _ _ _ FS) as E1. pose proof (forall2_scaled_sum _ _ _ FT) as E2.
    rewrite SumF, E2 in E1. unfold Qeq in E1. cbn in E1. lia. }
  exists u, S, T. split; [|split; [exact PS|split; [exact PT|split; [exact SumZ|]]]].
  { exists es, et, common, fs, ft. split; [exact Cases|]. split; [rewrite Pes; exact P1|].
    split; [rewrite Pet; exact P2|]. split; [exact Dis|]. split; [exact U|]. split; [exact FS|]. split; [exact FT|].
    split; [intros v Hv Hf; apply Least; assumption|].
    split; [exact (forall2_scaled_sorted _ _ _ U So1 FS)|exact (forall2_scaled_sorted _ _ _ U So2 FT)]. }
  destruct ss as [|s0 ss]; [exfalso; apply Ns; reflexivity|]. destruct ts as [|t0 ts]; [exfalso; apply Nt; reflexivity|].
  split; [|].
  { intros ->. inversion FS; subst. destruct ft as [|f0 ft]; [reflexivity|]. exfalso.
    inversion FT; subst. inversion PT as [|? ? Q1 Q2]; subst. pose proof (zsum_nonneg _ Q2). cbn in SumZ. fold (zsum l') in SumZ. lia. }
  assert (NF : S <> [] -> fs <> []) by (intros H ->; inversion FS; congruence).
  assert (NT : S <> [] -> T <> []).
  { intros H ->. destruct S as [|x S]; [congruence|]. inversion PS as [|? ? Q1 Q2]; subst. pose proof (zsum_nonneg _ Q2).
    rewrite zsum_cons in SumZ. cbn in SumZ. lia. }
  assert (Fmt : forall l, Forall (fun f => (0 < f)%Qc) l -> exists a, format_fractions l = Ok a).
  { intros l Pl. eexists. apply format_fractions_words. eapply Forall_impl; [|exact Pl]. intros f.
    unfold Qclt, Qlt, numer. cbn. lia. }
  destruct (Fmt fs Pfs) as (a & Ea). destruct (Fmt ft Pft) as (b & Eb).
  destruct (group_values_spec T PT) as (roots & cost & EG & SG & SumG & FG & PG & TG).
  assert (PosG : Forall (fun v => 0 < v) (map gvalue roots)).
  { apply Forall_forall. intros v Hv. apply in_map_iff in Hv. destruct Hv as (g & <- & Hg).
    rewrite Forall_forall in FG. rewrite (folded_sum g (FG g Hg)).
    assert (PL : Forall (fun v => 0 < v) (gleaves g)).
    { apply Forall_forall. intros x Hx. rewrite Forall_forall in PT. apply PT, (Permutation_in _ PG), in_flat_map. eauto. }
    assert (NL : gleaves g <> []).
    { pose proof (FG g Hg) as Fg. clear -Fg. induction Fg as [v|w cs L V F IH]; [discriminate|].
      rewrite gleaves_node by (intros ->; cbn in L; lia). destruct cs as [|c cs]; [cbn in L; lia|].
      cbn [flat_map]. intros E. apply app_eq_nil in E. destruct E as [E _]. apply (IH c); [left; reflexivity|exact E]. }
    destruct (gleaves g) as [|x r]; [congruence|]. inversion PL as [|? ? Q1 Q2]; subst. pose proof (zsum_nonneg _ Q2). rewrite zsum_cons. lia. }
  assert (NG : S <> [] -> roots <> []).
  { intros H ->. cbn in PG. apply Permutation_nil in PG. apply (NT H). exact PG. }
  split.
  - intros NS Small. specialize (NF NS). destruct fs as [|f0 fs]; [congruence|].
    rewrite Ea, Eb. cbn [bind]. rewrite EG. cbn [bind].
    destruct roots as [|r0 roots]; [exfalso; apply (NG NS); reflexivity|]. cbn [map zmin].
    rewrite map_new_leaf by exact PS. cbn [bind]. unfold best_size_upper_bond.
    assert (X : upper_loop (map gvalue (r0 :: roots)) (zsum S) (merge_cost (Z.of_nat (length S)) 1) = Err ValueError).
    { rewrite SumZ. assert (SortT : StronglySorted Z.le T) by (exact (forall2_scaled_sorted _ _ _ U So2 FT)).
      destruct Small as [S2| ->].
      - destruct (small_sorted T PT SortT) as [->|[->|[->|[->|[->|[->| ->]]]]]]; try (cbn in S2; lia);
        vm_compute in EG; inversion EG; subst; reflexivity.
      - vm_compute in EG. inversion EG; subst. cbn [map gvalue upper_loop].
        replace (zsum [1; 2]) with 3 by reflexivity.
        destruct (extract_cost_pos 3 1) as (c & E & _); [lia|lia|]. rewrite E. cbn [bind]. reflexivity. }
    cbn [map] in X. rewrite X. reflexivity.
  - intros NS Big. specialize (NF NS). destruct fs as [|f0 fs]; [congruence|].
    rewrite Ea, Eb. cbn [bind]. rewrite EG. cbn [bind].
    destruct roots as [|r0 roots]; [exfalso; apply (NG NS); reflexivity|]. cbn [map zmin].
    rewrite map_new_leaf by exact PS. cbn [bind].
    assert (X : exists bb, best_size_upper_bond S (map gvalue (r0 :: roots)) = Ok bb /\ 0 <= bb).
    { unfold best_size_upper_bond.
      assert (M : 0 <= merge_cost (Z.of_nat (length S)) 1).
      { destruct (c01_merge_cost_minimal_lemma (Z.of_nat (length S)) 1) as (k & -> & _); lia. }
      replace (zsum S) with (zsum (map gvalue (r0 :: roots))) by (rewrite SumG; lia).
      assert (L : 2 < last (map gvalue (r0 :: roots)) 3).
      { destruct (Z_le_dec 4 (zsum T)) as [L4|L4]; [apply last_big; auto; lia|].
        assert (SortT : StronglySorted Z.le T) by (exact (forall2_scaled_sorted _ _ _ U So2 FT)).
        assert (T1 : T <> [1]).
        { intros ->. cbn in SumZ. assert (SortS : StronglySorted Z.le S) by (exact (forall2_scaled_sorted _ _ _ U So1 FS)).
          destruct (small_sorted S PS SortS) as [->|[->|[->|[->|[->|[->| ->]]]]]]; cbn in SumZ; try lia; try congruence.
          (* S = T = [1] would share the value 1 *)
          destruct (forall2_in_l _ _ _ 1 FS) as (x & Ix & Sx); [left; reflexivity|].
          destruct (forall2_in_l _ _ _ 1 FT) as (y & Iy & Sy); [left; reflexivity|].
          apply (Dis x). split; [exact Ix|]. replace x with y; [exact Iy|]. apply Qc_is_canon.
          unfold scaled_is in Sx, Sy. rewrite <- Sx in Sy. apply Qmult_inj_r in Sy; [exact Sy|].
          unfold Qeq. cbn. lia. }
        destruct (small_sorted T PT SortT) as [->|[->|[->|[->|[->|[->| ->]]]]]]; try lia; try congruence;
        try (exfalso; apply Big; left; reflexivity); try (exfalso; apply Big; right; reflexivity);
        vm_compute in EG; inversion EG; subst; cbn; lia. }
      destruct (upper_loop_ok _ (merge_cost (Z.of_nat (length S)) 1) SG PosG L) as (r' & E & R).
      exists r'. split; [exact E|lia]. }
    destruct X as (bb & EX & BB). cbn [map] in EX. rewrite EX. cbn [bind].
    destruct S as [|z0 S]; [congruence|]. cbn [app compute_gcd bind].
    eexists. split; [reflexivity|]. cbn [p_unit_flow_ratio p_sources p_target_integers p_leaves p_size_offset p_targets
      p_initial_best_size p_min_target p_target_counts p_gcd p_problem_str map zmin].
    repeat (split; [reflexivity|]).
    split; [exists bb; split; [exact EX|split; [exact BB|reflexivity]]|].
    repeat (split; [reflexivity|]). exists (f0 :: fs), ft, a, b. auto.
Qed.

(** ** loading the problem's own name *)
Lemma sorted_frac_unique l l' : is_sorted frac_leb l -> is_sorted frac_leb l' -> Permutation l l' -> l = l'.
Proof. apply sorted_unique. intros a b. rewrite !frac_leb_le. apply Qcle_antisym. Qed.

Lemma balance_id s t fs ft : Permutation s fs -> Permutation t ft ->
  is_sorted frac_leb fs -> is_sorted frac_leb ft -> qsum fs = qsum ft -> balance s t = (fs, ft).
Proof.
  intros Ps Pt Ss St Q. unfold balance. rewrite !frac_sum_qsum.
  assert (E1 : sorted_by frac_leb s = fs).
  { apply sorted_frac_unique; [apply sorted_by_sorted; [exact frac_leb_total|exact frac_leb_trans]|exact Ss|].
    rewrite sorted_by_perm. exact Ps. }
  assert (E2 : sorted_by frac_leb t = ft).
  { apply sorted_frac_unique; [apply sorted_by_sorted; [exact frac_leb_total|exact frac_leb_trans]|exact St|].
    rewrite sorted_by_perm. exact Pt. }
  rewrite E1, E2, Q. assert (X : frac_leb (qsum ft) (qsum ft) = true) by (apply frac_leb_le, Qcle_refl).
  rewrite X. reflexivity.
Qed.

Lemma remove_pairs_id fs ft : is_sorted frac_leb fs -> is_sorted frac_leb ft ->
  (forall f, ~ (In f fs /\ In f ft)) -> remove_pairs frac_eqb fs ft = (fs, ft).
Proof.
  intros Ss St D. destruct (remove_pairs_sorted frac_eqb frac_eq_decides (fun a b => frac_leb a b = true) fs ft) as [R1 R2].
  { intros x. apply frac_leb_le, Qcle_refl. }
  pose proof (remove_pairs_counts frac_eqb frac_eq_decides fs ft) as C.
  assert (Z : forall v, cnt frac_eqb v fs = 0%nat \/ cnt frac_eqb v ft = 0%nat).
  { intros v. destruct (cnt_pos frac_eqb frac_eq_decides v fs) as [I1 _].
    destruct (cnt_pos frac_eqb frac_eq_decides v ft) as [I2 _].
    destruct (cnt frac_eqb v fs); [left; reflexivity|]. destruct (cnt frac_eqb v ft); [right; reflexivity|].
    exfalso. apply (D v). split; [apply I1|apply I2]; lia. }
  assert (E1 : fst (remove_pairs frac_eqb fs ft) = fs).
  { apply sorted_frac_unique; [first [exact (R1 Ss)|exact (R2 St)]|assumption|]. apply (perm_cnt frac_eqb frac_eq_decides). intros v. destruct (C v) as [-> _].
    destruct (Z v); lia. }
  assert (E2 : snd (remove_pairs frac_eqb fs ft) = ft).
  { apply sorted_frac_unique; [first [exact (R1 Ss)|exact (R2 St)]|assumption|]. apply (perm_cnt frac_eqb frac_eq_decides). intros v. destruct (C v) as [_ ->].
    destruct (Z v); lia. }
  destruct (remove_pairs frac_eqb fs ft). cbn in *. congruence.
Qed.

Lemma load_own_name : forall ss ts p,
  Forall (fun f => (0 < f)%Qc) ss -> Forall (fun f => (0 < f)%Qc) ts ->
  load_values ss ts = Ok (Some p) ->
  load (p_problem_str p) = Ok (Some p) /\ load (replace_char big_solidus slash (p_problem_str p)) = Ok (Some p).
Proof.
  intros ss ts p Ps Pt H.
  destruct ss as [|s0 ss]; [discriminate|]. destruct ts as [|t0 ts]; [discriminate|].
  pose proof (balance_spec (s0 :: ss) (t0 :: ts)) as B. unfold load_values in H.
  destruct (balance (s0 :: ss) (t0 :: ts)) as [s t].
  destruct B as (Ss & St & Sum & es & et & Pes & Pet & Cases).
  destruct (remove_pairs_perm frac_eqb frac_eq_decides s t) as (common & P1 & P2).
  pose proof (remove_pairs_disjoint frac_eqb frac_eq_decides s t) as Dis.
  destruct (remove_pairs_sorted frac_eqb frac_eq_decides (fun a b => frac_leb a b = true) s t) as [So1 So2].
  { intros x. apply frac_leb_le, Qcle_refl. }
  specialize (So1 Ss). specialize (So2 St).
  destruct (remove_pairs frac_eqb s t) as [fs ft]. cbn [fst snd] in *.
  assert (PosAll : Forall (fun f => (0 < f)%Qc) ((s0 :: ss) ++ es) /\ Forall (fun f => (0 < f)%Qc) ((t0 :: ts) ++ et)).
  { destruct Cases as [(-> & -> & _)|[(d & Pd & -> & -> & _)|(d & Pd & -> & -> & _)]]; rewrite ?app_nil_r;
    split; rewrite ?Forall_app; auto. }
  destruct PosAll as [PA1 PA2].
  assert (Pfs : Forall (fun f => (0 < f)%Qc) fs).
  { apply Forall_forall. intros f Hf. rewrite Forall_forall in PA1. apply PA1.
    apply (Permutation_in _ (Permutation_sym Pes)), (Permutation_in _ (Permutation_sym P1)), in_or_app. left. exact Hf. }
  assert (Pft : Forall (fun f => (0 < f)%Qc) ft).
  { apply Forall_forall. intros f Hf. rewrite Forall_forall in PA2. apply PA2.
    apply (Permutation_in _ (Permutation_sym Pet)), (Permutation_in _ (Permutation_sym P2)), in_or_app. left. exact Hf. }
  assert (SumF : qsum fs = qsum ft).
  { rewrite (qsum_perm _ _ P1), (qsum_perm _ _ P2), !qsum_app in Sum.
    apply (f_equal (fun x => (x - qsum common)%Qc)) in Sum. ring_simplify in Sum. exact Sum. }
  destruct fs as [|f0 fs]; [destruct ft; discriminate|].
  assert (Nft : ft <> []).
  { intros ->. inversion Pfs as [|? ? Q1 Q2]; subst. change (qsum []) with (Q2Qc 0) in SumF.
    assert (X : forall l, Forall (fun f => (0 < f)%Qc) l -> (0 <= qsum l)%Qc).
    { induction l as [|x l IH]; intros F; [apply Qcle_refl|]. inversion F; subst.
      change (qsum (x :: l)) with (x + qsum l)%Qc. change (Q2Qc 0) with (Q2Qc 0 + Q2Qc 0)%Qc.
      apply Qcplus_le_compat; [apply Qclt_le_weak; assumption|auto]. }
    change (qsum (f0 :: fs)) with (f0 + qsum fs)%Qc in SumF. specialize (X fs Q2).
    apply (Qclt_not_eq (Q2Qc 0) (f0 + qsum fs)%Qc); [|symmetry; exact SumF].
    unfold Qclt, Qcle in *. rewrite this_plus. change (this (Q2Qc 0)) with 0%Q in *.
    apply Qlt_le_trans with (this f0 + 0)%Q; [rewrite Qplus_0_r; exact Q1|]. apply Qplus_le_compat; [apply Qle_refl|exact X]. }
  destruct (c12_format_parse_round_trip_lemma (f0 :: fs) ft) as (a & b & Ea & Eb & R1 & R2);
    [discriminate|exact Nft|eapply Forall_impl; [|exact Pfs]; intros; apply Qclt_le_weak; assumption
    |eapply Forall_impl; [|exact Pft]; intros; apply Qclt_le_weak; assumption|].
  assert (Name : p_problem_str p = a ++ [space; letter_t; letter_o; space] ++ b).
  { rewrite Ea, Eb in H. cbn [bind] in H. revert H.
    destruct (fractions_to_integers ((f0 :: fs) ++ ft)) as [r u].
    destruct (group_values (skipn (length (f0 :: fs)) r)) as [[lv so]|e]; cbn [bind]; [|discriminate].
    destruct (zmin (map gvalue lv)); [|discriminate].
    destruct (map_res new_leaf (firstn (length (f0 :: fs)) r)); cbn [bind]; [|discriminate].
    destruct (best_size_upper_bond _ _); cbn [bind]; [|discriminate].
    destruct (compute_gcd _); cbn [bind]; [|discriminate]. intros [= <-]. reflexivity. }
  assert (Again : load_values (gather frac_eqb (f0 :: fs)) (gather frac_eqb ft) = Ok (Some p)).
  { pose proof (gather_perm frac_eqb frac_eq_decides (f0 :: fs)) as G1.
    pose proof (gather_perm frac_eqb frac_eq_decides ft) as G2.
    unfold load_values. rewrite (balance_id _ _ _ _ G1 G2 So1 So2 SumF), (remove_pairs_id _ _ So1 So2 Dis).
    destruct (gather frac_eqb (f0 :: fs)) eqn:X1; [apply Permutation_nil in G1; discriminate|].
    destruct (gather frac_eqb ft) eqn:X2; [apply Permutation_nil in G2; congruence|]. exact H. }
  rewrite Name. unfold load. rewrite R1, R2. split; exact Again.
Qed.

Lemma load_parsed s p : load s = Ok (Some p) <->
  exists ss ts, parse_user_input s = Ok (Some (ss, ts)) /\ load_values ss ts = Ok (Some p).
Proof.
  unfold load. split.
  - destruct (parse_user_input s) as [[[ss ts]|]|e]; try discriminate. eauto.
  - intros (ss & ts & -> & H). exact H.
Qed.

Lemma load_reduced : forall ss ts p,
  Forall (fun f => (0 < f)%Qc) ss -> Forall (fun f => (0 < f)%Qc) ts ->
  load_values ss ts = Ok (Some p) ->
  reduced ss ts (p_unit_flow_ratio p) (p_sources p) (p_target_integers p) /\
  Forall (fun v => 0 < v) (p_sources p) /\ Forall (fun v => 0 < v) (p_target_integers p) /\
  zsum (p_sources p) = zsum (p_target_integers p) /\
  (forall v, ~ (In v (p_sources p) /\ In v (p_target_integers p))).
Proof.
  intros ss ts p Ps Pt H.
  destruct ss as [|s0 ss]; [discriminate|]. destruct ts as [|t0 ts]; [discriminate|].
  destruct (load_values_spec (s0 :: ss) (t0 :: ts) Ps Pt) as (u & S & T & R & PS & PT & Sum & H1 & H2 & H3);
    [discriminate|discriminate|].
  assert (NS : S <> []) by (intros E; rewrite (H1 E) in H; discriminate).
  assert (Big : ~ too_small T) by (intros E; rewrite (H2 NS E) in H; discriminate).
  destruct (H3 NS Big) as (p' & E & <- & <- & <- & _). rewrite H in E. injection E as <-.
  repeat (split; [assumption|]). intros v [I1 I2].
  destruct R as (es & et & common & fs & ft & _ & _ & _ & Dis & U & FS & FT & _).
  destruct (forall2_in_l _ _ _ v FS I1) as (x & Ix & Sx).
  destruct (forall2_in_l _ _ _ v FT I2) as (y & Iy & Sy).
  apply (Dis x). split; [exact Ix|]. replace x with y; [exact Iy|]. apply Qc_is_canon.
  unfold scaled_is in Sx, Sy. rewrite <- Sx in Sy. apply Qmult_inj_r in Sy; [exact Sy|].
  unfold Qeq. cbn. lia.
Qed.

Lemma load_grouped : forall ss ts p,
  Forall (fun f => (0 < f)%Qc) ss -> Forall (fun f => (0 < f)%Qc) ts ->
  load_values ss ts = Ok (Some p) ->
  p_targets p = map gvalue (p_leaves p) /\ StronglySorted Z.lt (p_targets p) /\
  zsum (p_targets p) = zsum (p_sources p) /\ Forall folded (p_leaves p) /\
  Permutation (flat_map gleaves (p_leaves p)) (p_target_integers p) /\
  total_divide_cost (flat_map ginner (p_leaves p)) (p_size_offset p).
Proof.
  intros ss ts p Ps Pt H.
  destruct ss as [|s0 ss]; [discriminate|]. destruct ts as [|t0 ts]; [discriminate|].
  destruct (load_values_spec (s0 :: ss) (t0 :: ts) Ps Pt) as (u & S & T & R & PS & PT & Sum & H1 & H2 & H3);
    [discriminate|discriminate|].
  assert (NS : S <> []) by (intros E; rewrite (H1 E) in H; discriminate).
  assert (Big : ~ too_small T) by (intros E; rewrite (H2 NS E) in H; discriminate).
  destruct (H3 NS Big) as (p' & E & <- & <- & <- & EG & ET & _). rewrite H in E. injection E as <-.
  destruct (group_values_spec _ PT) as (roots & cost & EG' & SG & SumG & FG & PG & TG).
  rewrite EG in EG'. injection EG' as <- <-. rewrite ET.
  repeat (split; [first [assumption|congruence|reflexivity]|]). assumption.
Qed.

Lemma load_raises : forall ss ts,
  Forall (fun f => (0 < f)%Qc) ss -> Forall (fun f => (0 < f)%Qc) ts -> ss <> [] -> ts <> [] ->
  exists u S T, reduced ss ts u S T /\
    ((S = [] /\ load_values ss ts = Ok None) \/
     (S <> [] /\ too_small T /\ load_values ss ts = Err ValueError) \/
     (S <> [] /\ ~ too_small T /\ exists p, load_values ss ts = Ok (Some p))).
Proof.
  intros ss ts Ps Pt Ns Nt.
  destruct (load_values_spec ss ts Ps Pt Ns Nt) as (u & S & T & R & PS & PT & Sum & H1 & H2 & H3).
  exists u, S, T. split; [exact R|]. destruct S as [|z S]; [auto|].
  assert (NS : z :: S <> []) by discriminate.
  assert (D : too_small T \/ ~ too_small T).
  { unfold too_small. destruct (Z.eq_dec (zsum T) 2); [auto|]. destruct (list_eq_dec Z.eq_dec T [1; 2]); [auto|]. right. tauto. }
  right. destruct D as [D|D]; [auto|]. right. destruct (H3 NS D) as (p & E & _). eauto.
Qed.

Lemma load_total_refuted : exists ss ts, Forall (fun f => (0 < f)%Qc) ss /\ Forall (fun f => (0 < f)%Qc) ts /\
  ss <> [] /\ ts <> [] /\ load_values ss ts = Err ValueError.
Proof.
  exists [frac_of_Z 3], [frac_of_Z 1; frac_of_Z 2].
  split; [repeat constructor|]. split; [repeat constructor|]. split; [discriminate|]. split; [discriminate|].
  vm_compute. reflexivity.
Qed.
