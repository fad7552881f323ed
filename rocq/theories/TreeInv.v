(** The invariant of the trees of the search, and that Tree.deepcopy keeps it. *)
From Verif Require Import Base BaseLemmas Cost Utils UtilsSpec UtilsProofs Fractions Load Tree TreeSpec HeapLemmas CopyProofs.
Open Scope Z_scope.

(** [N] is the set of nodes of [t] *)
Record wf (h : heap Z) (t : tree Z) (N : nat -> Prop) : Prop := {
  wf_bound : forall a, N a -> (a < length h)%nat;
  wf_roots : forall r, In r (t_roots t) -> N r;
  wf_roots_nd : NoDup (t_roots t);
  wf_child : forall a b, N a -> In b (children h a) -> N b;
  wf_parent : forall a b, N a -> In b (parents h a) -> N b;
  wf_links : forall a b, N a -> N b -> (In b (children h a) <-> In a (parents h b));
  wf_nd : forall a, N a -> NoDup (children h a) /\ NoDup (parents h a);
  wf_top : forall a, N a -> (parents h a = [] <-> In a (t_roots t));
  wf_flow : forall a, N a -> children h a = [] \/ splits h a \/ merged h a;
  wf_pos : forall a, N a -> 0 < value h a;
  wf_ids : forall a b, N a -> N b -> n_id (get h a) = n_id (get h b) -> a = b;
  wf_id_bound : forall a, N a -> (n_id (get h a) < length h)%nat;
  wf_open : forall a, In a (t_sources t) <-> N a /\ children h a = [];
  wf_open_nd : NoDup (t_sources t);
  wf_values : t_source_values t = map (value h) (t_sources t);
  wf_sorted : StronglySorted Z.le (t_source_values t);
  wf_last : last (t_levels t) [] = t_sources t;
  wf_levels : forall l a, In l (t_levels t) -> In a l -> N a;
  wf_reach : forall a, N a -> in_tree h t a;
  wf_level : forall a, N a -> exists l, level h a = Some l /\ 0 <= l <= t_current_level t;
  wf_edges : forall a b, N a -> In b (children h a) ->
    exists la lb, level h a = Some la /\ level h b = Some lb /\ la < lb;
  wf_tags : forall a, N a -> tagged h a;
  wf_past : forall a, N a -> fl_inv (n_past (get h a)) /\ In (value h a) (fl_items (n_past (get h a))) /\
    exists r, In r (t_roots t) /\ below h r a /\ In (value h r) (fl_items (n_past (get h a)));
  wf_tpast : fl_inv (t_past t)
}.

Lemma tuple_Z_decides : eq_decides (@tuple_eqb Z value_Z).
Proof. intros x y. apply tuple_eqb_eq. intros a b. apply Z.eqb_eq. Qed.

(** a set of nodes closed under children contains everything below *)
Lemma below_closed h (N : nat -> Prop) r a : (forall a b, N a -> In b (children h a) -> N b) -> N r -> below h r a -> N a.
Proof. intros H Nr B. induction B; eauto. Qed.

Lemma wf_in_tree h t N a : wf h t N -> (in_tree h t a <-> N a).
Proof. intros W. split; [|apply (wf_reach _ _ _ W)]. intros (r & Hr & B).
  eapply below_closed; [apply (wf_child _ _ _ W)|apply (wf_roots _ _ _ W), Hr|exact B]. Qed.

Lemma below_agree h h' (N : nat -> Prop) r a : (forall a, N a -> children h' a = children h a) ->
  (forall a b, N a -> In b (children h a) -> N b) -> N r -> below h r a -> below h' r a.
Proof. intros E H Nr B. induction B; [constructor|]. eapply below_step; [auto|]. rewrite E; [assumption|].
  eapply below_closed; eauto. Qed.

(** the invariant only reads the nodes of the tree *)
Lemma wf_agree h h' t (N : nat -> Prop) : (forall a, N a -> get h' a = get h a) -> (length h <= length h')%nat -> wf h t N -> wf h' t N.
Proof.
  intros E L W.
  assert (EC : forall a, N a -> children h' a = children h a) by (intros a Na; unfold children; rewrite E by exact Na; reflexivity).
  assert (EP : forall a, N a -> parents h' a = parents h a) by (intros a Na; unfold parents; rewrite E by exact Na; reflexivity).
  assert (EV : forall a, N a -> value h' a = value h a) by (intros a Na; unfold value; rewrite E by exact Na; reflexivity).
  assert (EL : forall a, N a -> level h' a = level h a) by (intros a Na; unfold level; rewrite E by exact Na; reflexivity).
  assert (MV : forall l, (forall a, In a l -> N a) -> map (value h') l = map (value h) l).
  { intros l H. apply map_ext_in. auto. }
  assert (BL : forall r a, N r -> below h r a -> below h' r a).
  { intros r a Nr. apply (below_agree h h' N); [exact EC|apply (wf_child _ _ _ W)|exact Nr]. }
  destruct W. constructor.
  - intros a Na. specialize (wf_bound0 a Na). lia.
  - assumption.
  - assumption.
  - intros a b Na. rewrite EC by exact Na. eauto.
  - intros a b Na. rewrite EP by exact Na. eauto.
  - intros a b Na Nb. rewrite EC, EP by assumption. auto.
  - intros a Na. rewrite EC, EP by assumption. auto.
  - intros a Na. rewrite EP by assumption. auto.
  - intros a Na. rewrite EC by exact Na. destruct (wf_flow0 a Na) as [H|[H|H]]; [left; exact H| |].
    + right; left. destruct H as (H1 & H2 & H3). split; [rewrite EC by exact Na; exact H1|]. split.
      * rewrite EC by exact Na. rewrite Forall_forall in *. intros c Hc. rewrite EP by eauto. auto.
      * rewrite EC, EV, MV by eauto. exact H3.
    + right; right. destruct H as (m & H1 & H2 & H3 & H4 & H5). assert (Nm : N m) by (apply (wf_child0 a); [exact Na|rewrite H1; left; reflexivity]).
      exists m. rewrite EC, EP, EV by assumption. split; [exact H1|]. split; [exact H2|]. split; [exact H3|]. split.
      * rewrite Forall_forall in *. intros q Hq. rewrite EC by eauto. auto.
      * rewrite MV by eauto. exact H5.
  - intros a Na. rewrite EV by exact Na. auto.
  - intros a b Na Nb. rewrite !E by assumption. auto.
  - intros a Na. rewrite E by exact Na. specialize (wf_id_bound0 a Na). lia.
  - intros a. rewrite wf_open0. split; intros [Na H]; (split; [exact Na|]); rewrite EC in * by exact Na; exact H.
  - assumption.
  - rewrite wf_values0. symmetry. apply MV. intros a Ha. apply wf_open0 in Ha. tauto.
  - assumption.
  - assumption.
  - assumption.
  - intros a Na. destruct (wf_reach0 a Na) as (r & Hr & B). exists r. split; [exact Hr|]. apply BL; auto.
  - intros a Na. rewrite EL by exact Na. auto.
  - intros a b Na Hb. rewrite EC in Hb by exact Na. rewrite !EL by eauto. auto.
  - intros a Na. destruct (wf_tags0 a Na) as (own & H1 & H2 & H3). exists own. rewrite E, EC, EP, EV, MV by eauto.
    rewrite H1. auto.
  - intros a Na. rewrite E, EV by exact Na. destruct (wf_past0 a Na) as (H1 & H2 & r & H3 & H4 & H5).
    split; [exact H1|]. split; [exact H2|]. exists r. rewrite EV by auto. auto.
  - assumption.
Qed.
Lemma wf_extends h h' t (N : nat -> Prop) : extends h h' -> wf h t N -> wf h' t N.
Proof. intros E W. apply (wf_agree h); [|apply extends_length; exact E|exact W].
  intros a Na. apply extends_get; [exact E|apply (wf_bound _ _ _ W), Na]. Qed.

(** ** lists of nodes *)
Lemma perm_nodup_in {A} (l l' : list A) : NoDup l -> NoDup l' -> (forall x, In x l <-> In x l') -> Permutation l l'.
Proof. apply NoDup_Permutation. Qed.
Lemma nodup_map_inj {A B} (f : A -> B) (P : A -> Prop) l : (forall a b, P a -> P b -> f a = f b -> a = b) ->
  (forall a, In a l -> P a) -> NoDup l -> NoDup (map f l).
Proof. intros I H ND. induction ND as [|x l Hx ND IH]; [constructor|]. cbn. constructor.
  - rewrite in_map_iff. intros (y & E & Hy). rewrite (I y x) in Hy; [contradiction|..]; auto; apply H; [right; exact Hy|left; reflexivity].
  - apply IH. intros a Ha. apply H. right. exact Ha. Qed.
Lemma in_map_inj {A B} (f : A -> B) (P : A -> Prop) l a : (forall a b, P a -> P b -> f a = f b -> a = b) ->
  (forall a, In a l -> P a) -> P a -> (In (f a) (map f l) <-> In a l).
Proof. intros I H Pa. split; [|apply in_map]. rewrite in_map_iff. intros (y & E & Hy). rewrite (I a y); auto. Qed.

Lemma look_all_ok copied l : (forall a, In a l -> lookup copied a = Some (copy_of copied a)) ->
  look_all copied l = Ok (map (copy_of copied) l).
Proof. intros H. unfold look_all. induction l as [|a l IH]; [reflexivity|]. cbn. rewrite H by (left; reflexivity).
  cbn. rewrite IH by (intros b Hb; apply H; right; exact Hb). reflexivity. Qed.
Lemma look_all_levels copied ls : (forall l a, In l ls -> In a l -> lookup copied a = Some (copy_of copied a)) ->
  map_res (look_all copied) ls = Ok (map (map (copy_of copied)) ls).
Proof. intros H. induction ls as [|l ls IH]; [reflexivity|]. cbn. rewrite look_all_ok by (intros a; apply H; left; reflexivity).
  cbn. rewrite IH by (intros l' a Hl; apply H; right; exact Hl). reflexivity. Qed.

Lemma fl_extend_id {A} (eqb : A -> A -> bool) (Heq : eq_decides eqb) l : NoDup l ->
  fl_items (fl_extend eqb l fl_new) = l /\ fl_inv (fl_extend eqb l fl_new).
Proof.
  intros ND. split; [|apply (fl_extend_spec eqb Heq), fl_new_inv].
  destruct (fl_extend_spec eqb Heq l fl_new (fl_new_inv)) as [_ E]. rewrite E. cbn [fl_items fl_new].
  assert (X : forall acc, NoDup (acc ++ l) -> fold_left (fun l x => ref_append eqb x l) l acc = acc ++ l).
  { clear - Heq. induction l as [|x l IH]; intros acc ND; [rewrite app_nil_r; reflexivity|]. cbn [fold_left].
    unfold ref_append at 2. assert (F : existsb (eqb x) acc = false).
    { apply (existsb_eqb_false eqb Heq). apply NoDup_remove_2 in ND. intros I. apply ND. apply in_or_app. left. exact I. }
    rewrite F. rewrite IH.
    - rewrite <- app_assoc. reflexivity.
    - rewrite <- app_assoc. exact ND. }
  apply (X []). exact ND.
Qed.

Lemma last_map {A B} (f : A -> B) l d : l <> [] -> last (map f l) (f d) = f (last l d).
Proof. induction l as [|x l IH]; [congruence|]. intros _. destruct l as [|y l]; [reflexivity|].
  cbn [map last] in *. apply IH. discriminate. Qed.

Lemma split_tags_perm v vs vs' ts : Permutation vs vs' -> split_tags v vs ts -> split_tags v vs' ts.
Proof.
  intros P S. inversion S; subst.
  - apply st_extract; auto. transitivity vs; [symmetry|]; assumption.
  - eapply st_divide; eauto. apply Permutation_repeat. symmetry; exact P.
  - eapply st_split; eauto. transitivity vs; [symmetry|]; assumption.
Qed.

(** ** the copy of a tree *)
Record copy_result (h : heap Z) (t : tree Z) (N : nat -> Prop) (h' : heap Z) (t' : tree Z) (C : nat -> nat) : Prop := {
  cr_extends : extends h h';
  cr_new : forall a, N a -> (length h <= C a < length h')%nat;
  cr_inj : forall a b, N a -> N b -> C a = C b -> a = b;
  cr_roots : t_roots t' = map C (t_roots t);
  cr_sources : t_sources t' = map C (t_sources t);
  cr_levels : t_levels t' = map (map C) (t_levels t);
  cr_past : fl_items (t_past t') = fl_items (t_past t);
  cr_level : t_current_level t' = t_current_level t;
  cr_values : t_source_values t' = t_source_values t;
  cr_size : t_size t' = t_size t;
  cr_data : forall a, N a -> value h' (C a) = value h a /\ n_id (get h' (C a)) = n_id (get h a) /\
    n_expands (get h' (C a)) = n_expands (get h a) /\
    level h' (C a) = (if existsb (Nat.eqb a) (t_roots t) then Some 0 else level h a);
  cr_children : forall a, N a -> children h' (C a) = map C (rev (children h a));
  cr_parents : forall a, N a -> Permutation (parents h' (C a)) (map C (parents h a));
  cr_npast : forall a v, N a -> In v (fl_items (n_past (get h' (C a)))) ->
    v = value h a \/ exists r, In r (t_roots t) /\ In v (fl_items (n_past (get h r)));
  cr_wf : wf h' t' (fun c => exists a, N a /\ c = C a)
}.

Lemma tree_deepcopy_ok h t N : wf h t N -> exists h' t' C,
  tree_deepcopy h t = Ok (h', t') /\ copy_result h t N h' t' C.
Proof.
  intros W.
  destruct (copy_roots_graph h N (wf_bound _ _ _ W) (wf_child _ _ _ W) (fun a Na => proj1 (wf_nd _ _ _ W a Na))
    (fun a Na => Z.lt_le_incl _ _ (wf_pos _ _ _ W a Na)) (t_roots t)) as (copied & h1 & E & LK & G).
  { apply (wf_roots _ _ _ W). }
  { intros a Na. apply (wf_reach _ _ _ W a Na). }
  set (C := copy_of copied) in *.
  assert (SN : forall a, In a (t_sources t) -> N a) by (intros a Ha; apply (wf_open _ _ _ W) in Ha; tauto).
  set (h' := set_levels 0 (map C (t_roots t)) h1).
  exists h'.
  exists (MkTree (map C (t_roots t)) (map C (t_sources t)) (map (map C) (t_levels t))
           (fl_extend tuple_eqb (fl_items (t_past t)) fl_new) (t_current_level t) (t_source_values t)
           (Z.of_nat (length (map C (t_roots t)))) (t_size t)).
  exists C. split.
  { unfold tree_deepcopy. rewrite E. cbn [bind]. rewrite look_all_ok by (intros a Ha; apply LK, (wf_roots _ _ _ W), Ha).
    cbn [bind tree_new]. rewrite look_all_ok by (intros a Ha; apply LK, SN, Ha). cbn [bind].
    rewrite look_all_levels by (intros l a Hl Ha; apply LK, (wf_levels _ _ _ W l a Hl Ha)). reflexivity. }
  destruct (fl_extend_id tuple_eqb tuple_Z_decides (fl_items (t_past t)) (proj1 (wf_tpast _ _ _ W))) as [TP1 TP2].
  assert (LEN : length h' = length h1) by apply set_levels_length.
  assert (KEEP : forall {A} (f : node Z -> A) c, (forall o n, f (set_level o n) = f n) -> f (get h' c) = f (get h1 c)).
  { intros A f c Hf. apply (get_set_levels f 0 (map C (t_roots t)) h1 c Hf). }
  assert (VAL : forall a, N a -> value h' (C a) = value h a).
  { intros a Na. unfold value. rewrite (KEEP _ n_value) by reflexivity. apply (cg_data _ _ _ _ _ G a Na). }
  assert (CHI : forall a, N a -> children h' (C a) = map C (rev (children h a))).
  { intros a Na. unfold children at 1. rewrite (KEEP _ n_children) by reflexivity. apply (cg_children _ _ _ _ _ G a Na). }
  assert (INJ : forall a b, N a -> N b -> C a = C b -> a = b) by apply (cg_inj _ _ _ _ _ G).
  assert (RN := wf_roots _ _ _ W).
  assert (PAR : forall a, N a -> Permutation (parents h' (C a)) (map C (parents h a))).
  { intros a Na. unfold parents at 1. rewrite (KEEP _ n_parents) by reflexivity. apply NoDup_Permutation.
    - apply (cg_parents_nodup _ _ _ _ _ G a Na).
    - apply nodup_map_inj with N; [exact INJ|intros b; apply (wf_parent _ _ _ W a b Na)|apply (wf_nd _ _ _ W a Na)].
    - intros x. change (n_parents (get h1 (C a))) with (parents h1 (C a)).
      rewrite (cg_parents _ _ _ _ _ G a x Na), in_map_iff. split.
      + intros (b & Nb & -> & Hb). exists b. split; [reflexivity|]. apply (wf_links _ _ _ W b a Nb Na). exact Hb.
      + intros (b & <- & Hb). exists b. pose proof (wf_parent _ _ _ W a b Na Hb) as Nb. split; [exact Nb|].
        split; [reflexivity|]. apply (wf_links _ _ _ W b a Nb Na). exact Hb. }
  assert (LEV : forall a, N a -> level h' (C a) = if existsb (Nat.eqb a) (t_roots t) then Some 0 else level h a).
  { intros a Na. unfold level. destruct (existsb (Nat.eqb a) (t_roots t)) eqn:X.
    - apply mem_in in X. unfold h'. rewrite get_set_levels_in; [reflexivity|apply in_map, X|apply (cg_new _ _ _ _ _ G a Na)].
    - apply not_true_iff_false in X. rewrite mem_in in X. unfold h'. rewrite get_set_levels_other.
      + apply (cg_data _ _ _ _ _ G a Na).
      + rewrite (in_map_inj C N) by auto. exact X. }
  assert (EXT : extends h h').
  { apply extends_set_levels; [apply (cg_ext _ _ _ _ _ G)|]. apply Forall_forall. intros c Hc. apply in_map_iff in Hc.
    destruct Hc as (a & <- & Ha). apply (cg_new _ _ _ _ _ G a). auto. }
  assert (BEL : forall r a, N r -> below h r a -> below h' (C r) (C a)).
  { intros r a Nr B. induction B as [|r a b B IH Hb]; [constructor|]. eapply below_step; [apply IH, Nr|].
    rewrite CHI by (apply (below_closed h N r a (wf_child _ _ _ W) Nr B)). apply in_map. apply -> in_rev. exact Hb. }
  assert (MV : forall l, (forall a, In a l -> N a) -> map (value h') (map C l) = map (value h) l).
  { intros l H. rewrite map_map. apply map_ext_in. intros a Ha. apply VAL. auto. }
  constructor; cbn [t_roots t_sources t_levels t_past t_current_level t_source_values t_size]; auto.
  - intros a Na. rewrite LEN. apply (cg_new _ _ _ _ _ G a Na).
  - intros a Na. split; [auto|]. rewrite (KEEP _ n_id), (KEEP _ n_expands) by reflexivity.
    destruct (cg_data _ _ _ _ _ G a Na) as (_ & D2 & _ & D4 & _). auto.
  - intros a v Na Hv. rewrite (KEEP _ n_past) in Hv by reflexivity.
    destruct (cg_past _ _ _ _ _ G a Na) as (r & Hr & _ & ER). rewrite ER in Hv. unfold copied_past in Hv.
    apply (fl_extend_in Z.eqb Z_eq_decides) in Hv; [|apply (fl_append_spec Z.eqb Z_eq_decides), fl_new_inv].
    destruct Hv as [Hv|[Hv|[]]]; [right; eauto|left; symmetry; exact Hv].
  - constructor; cbn [t_roots t_sources t_levels t_past t_current_level t_source_values t_size].
    + intros c (a & Na & ->). rewrite LEN. apply (cg_new _ _ _ _ _ G a Na).
    + intros r Hr. apply in_map_iff in Hr. destruct Hr as (a & <- & Ha). exists a. auto.
    + apply nodup_map_inj with N; [exact INJ|exact RN|apply (wf_roots_nd _ _ _ W)].
    + intros c b (a & Na & ->) Hb. rewrite CHI in Hb by exact Na. apply in_map_iff in Hb. destruct Hb as (d & <- & Hd).
      apply in_rev in Hd. exists d. split; [apply (wf_child _ _ _ W a d Na Hd)|reflexivity].
    + intros c b (a & Na & ->) Hb. apply (Permutation_in _ (PAR a Na)), in_map_iff in Hb. destruct Hb as (d & <- & Hd).
      exists d. split; [apply (wf_parent _ _ _ W a d Na Hd)|reflexivity].
    + intros c d (a & Na & ->) (b & Nb & ->). rewrite CHI by exact Na.
      rewrite (in_map_inj C N), <- in_rev; [|exact INJ|intros x Hx; apply in_rev in Hx; apply (wf_child _ _ _ W a x Na Hx)|exact Nb].
      rewrite (wf_links _ _ _ W a b Na Nb). split.
      * intros H. apply (Permutation_in _ (Permutation_sym (PAR b Nb))). apply in_map. exact H.
      * intros H. apply (Permutation_in _ (PAR b Nb)) in H. rewrite (in_map_inj C N) in H; [exact H|exact INJ| |exact Na].
        intros x. apply (wf_parent _ _ _ W b x Nb).
    + intros c (a & Na & ->). split.
      * rewrite CHI by exact Na. apply nodup_map_inj with N; [exact INJ| |apply NoDup_rev, (wf_nd _ _ _ W a Na)].
        intros x Hx. apply in_rev in Hx. apply (wf_child _ _ _ W a x Na Hx).
      * apply (Permutation_NoDup (Permutation_sym (PAR a Na))).
        apply nodup_map_inj with N; [exact INJ|intros b; apply (wf_parent _ _ _ W a b Na)|apply (wf_nd _ _ _ W a Na)].
    + intros c (a & Na & ->). rewrite (in_map_inj C N) by auto. rewrite <- (wf_top _ _ _ W a Na). split; intros H.
      * pose proof (PAR a Na) as P. rewrite H in P. apply Permutation_nil in P. destruct (parents h a); [reflexivity|discriminate].
      * pose proof (PAR a Na) as P. rewrite H in P. cbn in P. symmetry in P. apply Permutation_nil in P. exact P.
    + intros c (a & Na & ->). rewrite CHI by exact Na. destruct (wf_flow _ _ _ W a Na) as [H|[H|H]].
      * left. rewrite H. reflexivity.
      * right; left. destruct H as (H1 & H2 & H3). unfold splits. rewrite CHI by exact Na.
        split; [rewrite map_length, rev_length; exact H1|]. split.
        -- rewrite Forall_forall in *. intros x Hx. apply in_map_iff in Hx. destruct Hx as (d & <- & Hd). apply in_rev in Hd.
           pose proof (PAR d (wf_child _ _ _ W a d Na Hd)) as P. rewrite (H2 d Hd) in P. cbn in P.
           apply Permutation_length_1_inv. symmetry. exact P.
        -- rewrite VAL by exact Na. rewrite MV by (intros x Hx; apply in_rev in Hx; apply (wf_child _ _ _ W a x Na Hx)).
           rewrite <- H3, map_rev. apply zsum_perm. symmetry. apply Permutation_rev.
      * right; right. destruct H as (m & H1 & H2 & H3 & H4 & H5).
        assert (Nm : N m) by (apply (wf_child _ _ _ W a m Na); rewrite H1; left; reflexivity).
        pose proof (PAR m Nm) as P. exists (C m). rewrite CHI by exact Na. rewrite H1. split; [reflexivity|].
        split; [apply (Permutation_in _ (Permutation_sym P)), in_map, H2|].
        split; [rewrite (Permutation_length P), map_length; exact H3|]. split.
        -- rewrite Forall_forall in *. intros q Hq. apply (Permutation_in _ P), in_map_iff in Hq. destruct Hq as (d & <- & Hd).
           rewrite CHI by (apply (wf_parent _ _ _ W m d Nm Hd)). rewrite (H4 d Hd). reflexivity.
        -- rewrite VAL by exact Nm. rewrite (zsum_perm _ _ (Permutation_map (value h') P)).
           rewrite MV by (intros x; apply (wf_parent _ _ _ W m x Nm)). exact H5.
    + intros c (a & Na & ->). rewrite VAL by exact Na. apply (wf_pos _ _ _ W a Na).
    + intros c d (a & Na & ->) (b & Nb & ->). rewrite !(KEEP _ n_id) by reflexivity.
      destruct (cg_data _ _ _ _ _ G a Na) as (_ & -> & _). destruct (cg_data _ _ _ _ _ G b Nb) as (_ & -> & _).
      intros H. f_equal. apply (wf_ids _ _ _ W a b Na Nb H).
    + intros c (a & Na & ->). rewrite !(KEEP _ n_id) by reflexivity.
      destruct (cg_data _ _ _ _ _ G a Na) as (_ & -> & _). pose proof (wf_id_bound _ _ _ W a Na).
      pose proof (extends_length _ _ EXT). lia.
    + intros c. rewrite in_map_iff. split.
      * intros (a & <- & Ha). apply (wf_open _ _ _ W) in Ha. destruct Ha as [Na Ha]. split; [exists a; auto|].
        rewrite CHI, Ha by exact Na. reflexivity.
      * intros [(a & Na & ->) H]. exists a. split; [reflexivity|]. apply (wf_open _ _ _ W). split; [exact Na|].
        rewrite CHI in H by exact Na. apply map_eq_nil in H. destruct (children h a) as [|x l]; [reflexivity|].
        cbn in H. destruct (rev l); discriminate.
    + apply nodup_map_inj with N; [exact INJ|exact SN|apply (wf_open_nd _ _ _ W)].
    + rewrite MV by exact SN. apply (wf_values _ _ _ W).
    + apply (wf_sorted _ _ _ W).
    + destruct (t_levels t) as [|l0 ls] eqn:EL.
      * pose proof (wf_last _ _ _ W) as X. rewrite EL in X. cbn in X. rewrite <- X. reflexivity.
      * rewrite <- (wf_last _ _ _ W), EL. change (@nil nat) with (map C []) at 1. apply last_map. discriminate.
    + intros l c Hl Hc. apply in_map_iff in Hl. destruct Hl as (l0 & <- & Hl0). apply in_map_iff in Hc.
      destruct Hc as (a & <- & Ha). exists a. split; [apply (wf_levels _ _ _ W l0 a Hl0 Ha)|reflexivity].
    + intros c (a & Na & ->). destruct (wf_reach _ _ _ W a Na) as (r & Hr & B). exists (C r).
      split; [apply in_map, Hr|]. apply BEL; auto.
    + intros c (a & Na & ->). rewrite LEV by exact Na. destruct (wf_level _ _ _ W a Na) as (l & El & Bl).
      destruct (existsb (Nat.eqb a) (t_roots t)); [exists 0|exists l]; split; auto; lia.
    + intros c d (a & Na & ->) Hd. rewrite CHI in Hd by exact Na. apply in_map_iff in Hd. destruct Hd as (b & <- & Hb).
      apply in_rev in Hb. pose proof (wf_child _ _ _ W a b Na Hb) as Nb.
      destruct (wf_edges _ _ _ W a b Na Hb) as (la & lb & E1 & E2 & L). destruct (wf_level _ _ _ W a Na) as (la' & E1' & B1).
      rewrite E1 in E1'. injection E1' as <-. rewrite !LEV by assumption.
      assert (NB : existsb (Nat.eqb b) (t_roots t) = false).
      { apply not_true_iff_false. rewrite mem_in. intros H. apply (wf_top _ _ _ W b Nb) in H.
        apply (wf_links _ _ _ W a b Na Nb) in Hb. rewrite H in Hb. destruct Hb. }
      rewrite NB. destruct (existsb (Nat.eqb a) (t_roots t)); [exists 0, lb|exists la, lb]; repeat split; auto; lia.
    + intros c (a & Na & ->). destruct (wf_tags _ _ _ W a Na) as (own & H1 & H2 & H3). exists own.
      rewrite (KEEP _ n_expands) by reflexivity. destruct (cg_data _ _ _ _ _ G a Na) as (_ & _ & _ & -> & _).
      rewrite (Permutation_length (PAR a Na)), map_length. split; [exact H1|].
      rewrite CHI by exact Na. rewrite map_length, rev_length. split; [|exact H3]. intros L.
      rewrite VAL by exact Na. rewrite MV by (intros x Hx; apply in_rev in Hx; apply (wf_child _ _ _ W a x Na Hx)).
      rewrite map_rev. eapply split_tags_perm; [apply Permutation_rev|auto].
    + intros c (a & Na & ->). rewrite (KEEP _ n_past) by reflexivity.
      destruct (cg_past _ _ _ _ _ G a Na) as (r & Hr & B & ->).
      destruct (wf_past _ _ _ W r (RN r Hr)) as (I1 & I2 & _).
      assert (I0 : fl_inv (fl_append Z.eqb (value h a) fl_new)) by (apply (fl_append_spec Z.eqb Z_eq_decides), fl_new_inv).
      unfold copied_past. split; [apply (fl_extend_spec Z.eqb Z_eq_decides), I0|].
      split.
      * apply (fl_extend_in Z.eqb Z_eq_decides); [exact I0|]. right. rewrite VAL by exact Na. cbn. left. reflexivity.
      * exists (C r). split; [apply in_map, Hr|]. split; [apply BEL; auto|]. rewrite VAL by auto.
        apply (fl_extend_in Z.eqb Z_eq_decides); [exact I0|]. left. exact I2.
    + exact TP2.
Qed.
