(** Tree.deepcopy: the traversal builds an isomorphic copy on fresh nodes. *)
From Verif Require Import Base BaseLemmas Cost Utils UtilsSpec UtilsProofs Fractions Load Tree TreeSpec HeapLemmas.
Open Scope Z_scope.

(** ** the dictionary of copied nodes *)
Lemma lookup_in (copied : list (nat * nat)) a c : lookup copied a = Some c -> In (a, c) copied.
Proof. unfold lookup. destruct (find _ copied) as [[a' c']|] eqn:E; [|discriminate]. cbn. intros [= ->].
  apply find_some in E. cbn in E. destruct E as [I E]. apply Nat.eqb_eq in E. subst. exact I. Qed.
Lemma in_lookup (copied : list (nat * nat)) a c : NoDup (map fst copied) -> In (a, c) copied -> lookup copied a = Some c.
Proof. unfold lookup. induction copied as [|[a' c'] l IH]; intros N I; [destruct I|]. cbn in *. inversion N; subst.
  destruct (Nat.eqb_spec a' a) as [->|D].
  - destruct I as [[= ->]|I]; [reflexivity|]. exfalso. apply H1. apply in_map_iff. exists (a, c). auto.
  - destruct I as [I|I]; [congruence|]. apply IH; assumption. Qed.
Lemma lookup_none (copied : list (nat * nat)) a : lookup copied a = None <-> ~ In a (map fst copied).
Proof. unfold lookup. destruct (find _ copied) as [[a' c']|] eqn:E; cbn.
  - apply find_some in E. destruct E as [I E]. cbn in E. apply Nat.eqb_eq in E. subst.
    split; [discriminate|]. intros H. exfalso. apply H, in_map_iff. exists (a, c'). auto.
  - split; [intros _|reflexivity]. intros I. apply in_map_iff in I. destruct I as ([a' c] & <- & I).
    pose proof (find_none _ _ E _ I) as X. cbn in X. rewrite Nat.eqb_refl in X. discriminate. Qed.
Lemma copy_of_in (copied : list (nat * nat)) a c : NoDup (map fst copied) -> In (a, c) copied -> copy_of copied a = c.
Proof. intros N I. unfold copy_of. rewrite (in_lookup _ _ _ N I). reflexivity. Qed.
Lemma key_in (copied : list (nat * nat)) a : In a (map fst copied) -> exists c, In (a, c) copied.
Proof. intros I. apply in_map_iff in I. destruct I as ([a' c] & <- & I). eauto. Qed.
Lemma in_key (copied : list (nat * nat)) a c : In (a, c) copied -> In a (map fst copied).
Proof. intros I. apply in_map_iff. exists (a, c). auto. Qed.
Lemma in_val (copied : list (nat * nat)) a c : In (a, c) copied -> In c (map snd copied).
Proof. intros I. apply in_map_iff. exists (a, c). auto. Qed.

(** entries of the stack that will become children of [c], top first *)
Definition is_parent (c : nat) (e : nat * option nat) : bool :=
  match snd e with Some p => (p =? c)%nat | None => false end.
Definition pending (stack : list (nat * option nat)) (c : nat) : list nat :=
  map fst (filter (is_parent c) stack).

Lemma pending_app s s' c : pending (s ++ s') c = pending s c ++ pending s' c.
Proof. unfold pending. rewrite filter_app, map_app. reflexivity. Qed.
Lemma pending_none s c : (forall a, ~ In (a, Some c) s) -> pending s c = [].
Proof. unfold pending. induction s as [|[a [p|]] s IH]; intros H; [reflexivity| |]; cbn.
  - unfold is_parent at 1. cbn. destruct (Nat.eqb_spec p c) as [->|D].
    + exfalso. apply (H a). left. reflexivity.
    + apply IH. intros b I. apply (H b). right. exact I.
  - apply IH. intros b I. apply (H b). right. exact I. Qed.
Lemma pending_pushed l c c' : pending (rev (map (fun ch => (ch, Some c)) l)) c' = if (c =? c')%nat then rev l else [].
Proof.
  induction l as [|x l IH]; cbn [map rev]; [destruct (c =? c')%nat; reflexivity|].
  rewrite pending_app, IH. unfold pending, is_parent. cbn.
  destruct (c =? c')%nat; reflexivity.
Qed.

(** the data of a copied node *)
Definition same_data (n m : node Z) : Prop :=
  n_value m = n_value n /\ n_id m = n_id n /\ n_level m = n_level n /\
  n_expands m = n_expands n /\ n_levels_to_add m = 0.

Section Copy.
Variable h0 : heap Z.
Variable N : nat -> Prop.
Hypothesis N_bound : forall a, N a -> (a < length h0)%nat.
Hypothesis N_child : forall a b, N a -> In b (children h0 a) -> N b.
Hypothesis N_nodup : forall a, N a -> NoDup (children h0 a).
Hypothesis N_value : forall a, N a -> 0 <= value h0 a.

(** the past a copy receives when discovered from root [r] *)
Definition copied_past (r a : nat) : fastlist Z :=
  fl_extend Z.eqb (fl_items (n_past (get h0 r))) (fl_append Z.eqb (value h0 a) fl_new).

Record cinv (R : nat -> Prop) (stack : list (nat * option nat)) (copied : list (nat * nat)) (h : heap Z) : Prop := {
  ci_ext : extends h0 h;
  ci_len : length h = (length h0 + length copied)%nat;
  ci_addr : map snd copied = rev (seq (length h0) (length copied));
  ci_keys : NoDup (map fst copied);
  ci_N : forall a c, In (a, c) copied -> N a;
  ci_data : forall a c, In (a, c) copied -> same_data (get h0 a) (get h c);
  ci_past : forall a c, In (a, c) copied -> exists r, R r /\ below h0 r a /\ n_past (get h c) = copied_past r a;
  ci_kids : forall a c, In (a, c) copied -> exists done,
    rev (children h0 a) = done ++ pending stack c /\
    children h c = map (copy_of copied) done /\ (forall d, In d done -> In d (map fst copied));
  ci_par : forall x c, (length h0 <= c < length h)%nat ->
    (In x (parents h c) <-> (length h0 <= x < length h)%nat /\ In c (children h x));
  ci_nd : forall c, (length h0 <= c < length h)%nat -> NoDup (parents h c);
  ci_stack : forall a par, In (a, par) stack -> N a /\ (exists r, R r /\ below h0 r a) /\
    match par with None => True | Some c => In c (map snd copied) end
}.

Lemma cinv_val R stack copied h c : cinv R stack copied h ->
  (In c (map snd copied) <-> (length h0 <= c < length h)%nat).
Proof. intros I. rewrite (ci_addr _ _ _ _ I), <- in_rev, in_seq, (ci_len _ _ _ _ I). lia. Qed.
Lemma cinv_in_bound R stack copied h a c : cinv R stack copied h -> In (a, c) copied -> (length h0 <= c < length h)%nat.
Proof. intros I H. apply (cinv_val _ _ _ _ _ I). apply in_val with a. exact H. Qed.
Lemma cinv_inj R stack copied h a b c : cinv R stack copied h -> In (a, c) copied -> In (b, c) copied -> a = b.
Proof.
  intros I Ha Hb. assert (ND : NoDup (map snd copied)).
  { rewrite (ci_addr _ _ _ _ I). apply NoDup_rev, seq_NoDup. }
  clear - Ha Hb ND. induction copied as [|[x y] l IH]; [destruct Ha|]. cbn in *. inversion ND; subst.
  destruct Ha as [Ha|Ha], Hb as [Hb|Hb]; [congruence| | |auto].
  - injection Ha as -> ->. exfalso. apply H1, in_val with b. exact Hb.
  - injection Hb as -> ->. exfalso. apply H1, in_val with a. exact Ha.
Qed.

(** processing a node that was met before *)
Lemma cinv_again R a par stack copied h c :
  cinv R ((a, par) :: stack) copied h -> lookup copied a = Some c ->
  cinv R stack copied
    (link_child par c (match par with Some p => upd c (add_parent p) h | None => h end)).
Proof.
  intros I L. pose proof (lookup_in _ _ _ L) as Iac. destruct par as [p|]; cbn [link_child].
  2: { destruct I. constructor; auto. intros b q H. apply ci_stack0. right. exact H. }
  assert (Sp : In p (map snd copied)) by (apply (ci_stack _ _ _ _ I a (Some p)); left; reflexivity).
  assert (Bp : (length h0 <= p < length h)%nat) by (apply (cinv_val _ _ _ _ _ I); exact Sp).
  assert (Bc : (length h0 <= c < length h)%nat) by (apply (cinv_in_bound _ _ _ _ _ _ I Iac)).
  apply in_map_iff in Sp. destruct Sp as ([b p'] & E & Ibp). cbn in E. subst p'.
  set (h' := upd p (add_child c) (upd c (add_parent p) h)).
  assert (LEN : length h' = length h) by (unfold h'; rewrite !upd_length; reflexivity).
  assert (KID : forall x, children h' x = children h x ++ (if (x =? p)%nat then [c] else [])).
  { intros x. unfold children, h'. destruct (Nat.eqb_spec x p) as [->|D].
    - rewrite get_upd_same by (rewrite upd_length; lia). cbn.
      destruct (Nat.eq_dec c p) as [->|D'].
      + rewrite get_upd_same by lia. reflexivity.
      + rewrite get_upd_other by exact D'. reflexivity.
    - rewrite get_upd_other by congruence. rewrite app_nil_r.
      destruct (Nat.eq_dec c x) as [->|D'].
      + rewrite get_upd_same by lia. reflexivity.
      + rewrite get_upd_other by exact D'. reflexivity. }
  assert (PAR : forall x, parents h' x = parents h x ++ (if (x =? c)%nat then [p] else [])).
  { intros x. unfold parents, h'. destruct (Nat.eq_dec x p) as [->|D].
    - rewrite get_upd_same by (rewrite upd_length; lia). cbn. destruct (Nat.eqb_spec p c) as [->|D'].
      + rewrite get_upd_same by lia. reflexivity.
      + rewrite get_upd_other by congruence. rewrite app_nil_r. reflexivity.
    - rewrite get_upd_other by congruence. destruct (Nat.eqb_spec x c) as [->|D'].
      + rewrite get_upd_same by lia. reflexivity.
      + rewrite get_upd_other by congruence. rewrite app_nil_r. reflexivity. }
  assert (DATA : forall x {A} (f : node Z -> A), (forall n k, f (add_child k n) = f n) -> (forall n k, f (add_parent k n) = f n) ->
             f (get h' x) = f (get h x)).
  { intros x A f F1 F2. unfold h'. destruct (Nat.eq_dec p x) as [->|D].
    - rewrite get_upd_same by (rewrite upd_length; lia). rewrite F1.
      destruct (Nat.eq_dec c x) as [->|D']; [rewrite get_upd_same by lia; apply F2|rewrite get_upd_other by exact D'; reflexivity].
    - rewrite get_upd_other by exact D.
      destruct (Nat.eq_dec c x) as [->|D']; [rewrite get_upd_same by lia; apply F2|rewrite get_upd_other by exact D'; reflexivity]. }
  assert (OTHER : forall x, x <> p -> pending stack x = pending ((a, Some p) :: stack) x).
  { intros x D. unfold pending. cbn. unfold is_parent at 2. cbn. destruct (Nat.eqb_spec p x); [congruence|reflexivity]. }
  assert (HERE : pending ((a, Some p) :: stack) p = a :: pending stack p).
  { unfold pending. cbn. unfold is_parent at 1. cbn. rewrite Nat.eqb_refl. reflexivity. }
  assert (KP : exists done, rev (children h0 b) = done ++ a :: pending stack p /\
             children h p = map (copy_of copied) done /\ (forall d, In d done -> In d (map fst copied))).
  { destruct (ci_kids _ _ _ _ I b p Ibp) as (done & E1 & E2 & E3). rewrite HERE in E1. eauto. }
  constructor.
  - unfold h'. apply extends_upd; [|lia]. apply extends_upd; [apply (ci_ext _ _ _ _ I)|lia].
  - rewrite LEN. apply (ci_len _ _ _ _ I).
  - apply (ci_addr _ _ _ _ I).
  - apply (ci_keys _ _ _ _ I).
  - apply (ci_N _ _ _ _ I).
  - intros x y H. destruct (ci_data _ _ _ _ I x y H) as (D1 & D2 & D3 & D4 & D5). unfold same_data.
    rewrite !DATA by reflexivity. auto.
  - intros x y H. destruct (ci_past _ _ _ _ I x y H) as (r & D1 & D2 & D3). exists r. rewrite !DATA by reflexivity. auto.
  - intros x y H. destruct (Nat.eq_dec y p) as [->|D].
    + rewrite (cinv_inj _ _ _ _ _ _ _ I H Ibp). destruct KP as (done & E1 & E2 & E3).
      exists (done ++ [a]). rewrite <- app_assoc. split; [exact E1|]. split.
      * rewrite KID, Nat.eqb_refl, E2, map_app. cbn. rewrite (copy_of_in _ _ _ (ci_keys _ _ _ _ I) Iac). reflexivity.
      * intros d Hd. apply in_app_or in Hd. destruct Hd as [Hd|[<-|[]]]; [auto|]. apply in_key with c. exact Iac.
    + destruct (ci_kids _ _ _ _ I x y H) as (done & E1 & E2 & E3). exists done. rewrite OTHER by exact D.
      split; [exact E1|]. split; [|exact E3]. rewrite KID. destruct (Nat.eqb_spec y p); [contradiction|].
      rewrite app_nil_r. exact E2.
  - intros x y H. rewrite LEN in *. rewrite PAR, KID, !in_app_iff, (ci_par _ _ _ _ I x y H).
    destruct (Nat.eqb_spec y c) as [->|D1], (Nat.eqb_spec x p) as [->|D2]; cbn; intuition congruence.
  - intros y H. rewrite LEN in H. rewrite PAR. pose proof (ci_nd _ _ _ _ I y H) as ND.
    destruct (Nat.eqb_spec y c) as [->|D]; [|rewrite app_nil_r; exact ND].
    apply nodup_snoc; [exact ND|]. rewrite (ci_par _ _ _ _ I p c H). intros [_ Hc].
    destruct KP as (done & E1 & E2 & E3). rewrite E2 in Hc. apply in_map_iff in Hc. destruct Hc as (d & Ed & Hd).
    destruct (key_in _ _ (E3 d Hd)) as (cd & Icd). rewrite (copy_of_in _ _ _ (ci_keys _ _ _ _ I) Icd) in Ed. subst cd.
    rewrite (cinv_inj _ _ _ _ _ _ _ I Icd Iac) in Hd.
    assert (NDb : NoDup (rev (children h0 b))) by (apply NoDup_rev, N_nodup, (ci_N _ _ _ _ I b p Ibp)).
    rewrite E1 in NDb. apply NoDup_remove_2 in NDb. apply NDb, in_or_app. left. exact Hd.
  - intros x par H. apply (ci_stack _ _ _ _ I). right. exact H.
Qed.

(** processing a new node *)
Lemma cinv_fresh (R : nat -> Prop) r a par stack copied h :
  cinv R ((a, par) :: stack) copied h -> lookup copied a = None -> R r -> below h0 r a ->
  let c := length h in
  let n := get h a in
  let new := MkNode (n_value n) (n_id n) (n_level n) (copied_past r a)
               (match par with Some p => [p] | None => [] end) [] (n_expands n) 0 in
  get h a = get h0 a /\
  cinv R (rev (map (fun ch => (ch, Some c)) (n_children n)) ++ stack) ((a, c) :: copied)
    (link_child par c (h ++ [new])).
Proof.
  intros I L Rr Br c n new.
  assert (Na : N a) by (apply (ci_stack _ _ _ _ I a par); left; reflexivity).
  assert (G : get h a = get h0 a) by (apply extends_get; [apply (ci_ext _ _ _ _ I)|apply N_bound, Na]).
  split; [exact G|].
  assert (Bc : (length h0 <= c)%nat) by (unfold c; rewrite (ci_len _ _ _ _ I); lia).
  assert (Fresh : ~ In c (map snd copied)) by (rewrite (cinv_val _ _ _ _ _ I); lia).
  assert (Fresh1 : forall x, ~ In (x, c) copied) by (intros x H; apply Fresh, in_val with x, H).
  assert (Bpar : forall p, par = Some p -> (length h0 <= p < length h)%nat).
  { intros p ->. apply (cinv_val _ _ _ _ _ I). apply (ci_stack _ _ _ _ I a (Some p)). left. reflexivity. }
  set (h' := link_child par c (h ++ [new])).
  assert (LEN : length h' = S (length h)).
  { unfold h'. destruct par; cbn; rewrite ?upd_length, app_length; cbn; lia. }
  assert (KIDc : children h' c = []).
  { unfold h', children, c. destruct par as [p|]; cbn [link_child].
    - rewrite get_upd_other by (specialize (Bpar p eq_refl); lia). rewrite get_app_new. reflexivity.
    - rewrite get_app_new. reflexivity. }
  assert (KID : forall x, (x < length h)%nat ->
     children h' x = children h x ++ (match par with Some p => if (x =? p)%nat then [c] else [] | None => [] end)).
  { intros x Hx. unfold children, h', c. destruct par as [p|]; cbn [link_child].
    - destruct (Nat.eqb_spec x p) as [->|D].
      + rewrite get_upd_same by (rewrite app_length; lia). cbn. rewrite get_app_l by exact Hx. reflexivity.
      + rewrite get_upd_other by congruence. rewrite get_app_l by exact Hx. rewrite app_nil_r. reflexivity.
    - rewrite get_app_l by exact Hx. rewrite app_nil_r. reflexivity. }
  assert (DATA : forall x {A} (f : node Z -> A), (forall n k, f (add_child k n) = f n) ->
             f (get h' x) = f (get (h ++ [new]) x)).
  { intros x A f F. unfold h'. destruct par as [p|]; cbn [link_child]; [|reflexivity]. destruct (Nat.eq_dec p x) as [->|D].
    - rewrite get_upd_same by (rewrite app_length; specialize (Bpar x eq_refl); lia). apply F.
    - rewrite get_upd_other by exact D. reflexivity. }
  assert (PAR : forall x, parents h' x = if (x =? c)%nat then (match par with Some p => [p] | None => [] end) else parents h x).
  { intros x. unfold parents. rewrite DATA by reflexivity. destruct (Nat.eqb_spec x c) as [->|D].
    - unfold c. rewrite get_app_new. reflexivity.
    - destruct (Nat.lt_ge_cases x (length h)) as [B|B]; [rewrite get_app_l by exact B; reflexivity|].
      unfold get. rewrite !nth_overflow; [reflexivity|exact B|]. rewrite app_length. cbn. unfold c in D. lia. }
  assert (PEND : forall x, x <> c -> pending (rev (map (fun ch => (ch, Some c)) (n_children n)) ++ stack) x = pending stack x).
  { intros x D. rewrite pending_app, pending_pushed. destruct (Nat.eqb_spec c x); [congruence|reflexivity]. }
  assert (PENDc : pending (rev (map (fun ch => (ch, Some c)) (n_children n)) ++ stack) c = rev (n_children n)).
  { rewrite pending_app, pending_pushed, Nat.eqb_refl, pending_none, app_nil_r; [reflexivity|].
    intros x H. apply Fresh. apply (ci_stack _ _ _ _ I x (Some c)). right. exact H. }
  assert (CO : forall d, In d (map fst copied) -> copy_of ((a, c) :: copied) d = copy_of copied d).
  { intros d Hd. unfold copy_of, lookup. cbn. destruct (Nat.eqb_spec a d) as [->|D]; [|reflexivity].
    exfalso. apply lookup_none in L. contradiction. }
  assert (NK : NoDup (map fst ((a, c) :: copied))).
  { cbn. constructor; [apply lookup_none; exact L|apply (ci_keys _ _ _ _ I)]. }
  constructor.
  - unfold h'. assert (E : extends h0 (h ++ [new])) by (eapply extends_trans; [apply (ci_ext _ _ _ _ I)|apply extends_app]).
    destruct par as [p|]; cbn [link_child]; [|exact E]. apply extends_upd; [exact E|specialize (Bpar p eq_refl); lia].
  - rewrite LEN. cbn. rewrite (ci_len _ _ _ _ I). lia.
  - cbn [map snd length]. rewrite seq_S, rev_app_distr. cbn. f_equal; [|apply (ci_addr _ _ _ _ I)].
    unfold c. apply (ci_len _ _ _ _ I).
  - exact NK.
  - intros x y [[= <- <-]|H]; [exact Na|]. apply (ci_N _ _ _ _ I x y H).
  - intros x y [[= <- <-]|H].
    + unfold same_data. rewrite !DATA by reflexivity. unfold c. rewrite get_app_new. subst n new. cbn. rewrite G. auto.
    + pose proof (cinv_in_bound _ _ _ _ _ _ I H) as B. unfold same_data. rewrite !DATA by reflexivity.
      rewrite get_app_l by lia. apply (ci_data _ _ _ _ I x y H).
  - intros x y [[= <- <-]|H].
    + exists r. split; [exact Rr|]. split; [exact Br|]. rewrite DATA by reflexivity. unfold c. rewrite get_app_new. reflexivity.
    + pose proof (cinv_in_bound _ _ _ _ _ _ I H) as B. rewrite DATA by reflexivity. rewrite get_app_l by lia.
      apply (ci_past _ _ _ _ I x y H).
  - intros x y [[= <- <-]|H].
    + exists []. rewrite PENDc, KIDc. split; [|split; [reflexivity|intros d []]]. cbn. unfold n. rewrite G. reflexivity.
    + pose proof (cinv_in_bound _ _ _ _ _ _ I H) as B.
      assert (D : y <> c) by (unfold c; lia). rewrite PEND by exact D. rewrite KID by lia.
      destruct (ci_kids _ _ _ _ I x y H) as (done & E1 & E2 & E3).
      assert (MAP : map (copy_of copied) done = map (copy_of ((a, c) :: copied)) done).
      { apply map_ext_in. intros d Hd. symmetry. apply CO. auto. }
      destruct par as [p|].
      2: { exists done. unfold pending in E1 |- *. cbn in E1. split; [exact E1|].
           split; [rewrite app_nil_r, E2; exact MAP|]. intros d Hd. right. auto. }
      unfold pending in E1. cbn in E1. unfold is_parent at 1 in E1. cbn in E1. rewrite Nat.eqb_sym in E1.
      destruct (y =? p)%nat.
      * exists (done ++ [a]). rewrite <- app_assoc. split; [exact E1|].
        split; [rewrite map_app, E2, MAP; cbn; rewrite (copy_of_in _ a c NK) by (left; reflexivity); reflexivity|].
        intros d Hd. apply in_app_or in Hd. destruct Hd as [Hd|[<-|[]]]; [right; auto|left; reflexivity].
      * exists done. split; [exact E1|]. split; [rewrite app_nil_r, E2; exact MAP|]. intros d Hd. right. auto.
  - intros x y H. rewrite LEN in *. rewrite PAR.
    destruct (Nat.eqb_spec y c) as [->|D].
    + assert (NC : forall z, (length h0 <= z < length h)%nat -> ~ In c (children h z)).
      { intros z Hz Hc.
        assert (V : In z (map snd copied)) by (apply (cinv_val _ _ _ _ _ I); lia).
        apply in_map_iff in V. destruct V as ([b z'] & E & Ib). cbn in E. subst z'.
        destruct (ci_kids _ _ _ _ I b z Ib) as (done & E1 & E2 & E3). rewrite E2 in Hc.
        apply in_map_iff in Hc. destruct Hc as (d & Ed & Hd). destruct (key_in _ _ (E3 d Hd)) as (cd & Icd).
        rewrite (copy_of_in _ _ _ (ci_keys _ _ _ _ I) Icd) in Ed. subst cd. apply (Fresh1 d Icd). }
      destruct par as [p|].
      * specialize (Bpar p eq_refl). split.
        -- intros [<-|[]]. split; [lia|]. rewrite KID by lia. apply in_or_app. right. rewrite Nat.eqb_refl. left. reflexivity.
        -- intros [B Hc]. destruct (Nat.eq_dec x c) as [->|D]; [rewrite KIDc in Hc; destruct Hc|].
           rewrite KID in Hc by (unfold c in D; lia). apply in_app_or in Hc. destruct Hc as [Hc|Hc].
           ++ exfalso. apply (NC x); [unfold c in D; lia|exact Hc].
           ++ destruct (Nat.eqb_spec x p) as [->|D']; [left; reflexivity|destruct Hc].
      * split; [intros []|]. intros [B Hc]. destruct (Nat.eq_dec x c) as [->|D]; [rewrite KIDc in Hc; destruct Hc|].
        rewrite KID, app_nil_r in Hc by (unfold c in D; lia). apply (NC x); [unfold c in D; lia|exact Hc].
    + assert (By : (length h0 <= y < length h)%nat) by (unfold c in D; lia).
      rewrite (ci_par _ _ _ _ I x y By). destruct (Nat.eq_dec x c) as [->|Dx].
      * rewrite KIDc. unfold c. cbn. intuition lia.
      * destruct (Nat.lt_ge_cases x (length h)) as [B|B]; [|unfold c in Dx; intuition lia].
        rewrite KID by exact B. rewrite in_app_iff. destruct par as [p|]; [|cbn; intuition lia].
        destruct (x =? p)%nat; cbn; intuition (try lia; try congruence).
  - intros y H. rewrite PAR. destruct (Nat.eqb_spec y c) as [->|D].
    + destruct par; repeat constructor. intros [].
    + apply (ci_nd _ _ _ _ I). rewrite LEN in H. unfold c in D. lia.
  - intros x q H. apply in_app_or in H. destruct H as [H|H].
    + apply in_rev, in_map_iff in H. destruct H as (ch & [= <- <-] & Hch). unfold n in Hch. rewrite G in Hch.
      split; [apply (N_child a); assumption|]. split.
      * exists r. split; [exact Rr|]. eapply below_step; [exact Br|exact Hch].
      * cbn. left. reflexivity.
    + destruct (ci_stack _ _ _ _ I x q (or_intror H)) as (H1 & H2 & H3). split; [exact H1|]. split; [exact H2|].
      destruct q; [cbn; right; exact H3|exact Logic.I].
Qed.

(** ** the traversal ends *)
Definition weight (keys : list nat) (l : list nat) : nat :=
  list_sum (map (fun a => if existsb (Nat.eqb a) keys then O else length (children h0 a)) l).
Definition rest (copied : list (nat * nat)) : nat := weight (map fst copied) (seq 0 (length h0)).

Lemma mem_in a l : existsb (Nat.eqb a) l = true <-> In a l.
Proof. rewrite existsb_exists. split; [intros (x & I & E); apply Nat.eqb_eq in E; subst; exact I|].
  intros I. exists a. rewrite Nat.eqb_refl. auto. Qed.
Lemma weight_other a keys l : ~ In a l -> weight (a :: keys) l = weight keys l.
Proof. intros H. unfold weight. f_equal. apply map_ext_in. intros b I. cbn.
  destruct (Nat.eqb_spec b a) as [->|D]; [contradiction|]. reflexivity. Qed.
Lemma weight_cons a keys l : NoDup l -> In a l -> ~ In a keys ->
  weight keys l = (length (children h0 a) + weight (a :: keys) l)%nat.
Proof.
  induction l as [|b l IH]; intros ND I K; [destruct I|]. inversion ND; subst.
  unfold weight in *. cbn [map list_sum fold_right]. change (fold_right Init.Nat.add 0%nat) with list_sum.
  destruct (Nat.eq_dec b a) as [->|D].
  - replace (existsb (Nat.eqb a) (a :: keys)) with true by (cbn; rewrite Nat.eqb_refl; reflexivity).
    replace (existsb (Nat.eqb a) keys) with false.
    2: { symmetry. apply not_true_iff_false. rewrite mem_in. exact K. }
    pose proof (weight_other a keys l H1) as W. unfold weight in W. cbn [existsb] in *. rewrite W. reflexivity.
  - destruct I as [I|I]; [congruence|]. rewrite (IH H2 I K).
    replace (existsb (Nat.eqb b) (a :: keys)) with (existsb (Nat.eqb b) keys); [lia|].
    cbn. destruct (Nat.eqb_spec b a); [contradiction|reflexivity].
Qed.
Lemma rest_cons a c copied : (a < length h0)%nat -> ~ In a (map fst copied) ->
  rest copied = (length (children h0 a) + rest ((a, c) :: copied))%nat.
Proof. intros B K. unfold rest. cbn [map fst]. apply weight_cons; [apply seq_NoDup|apply in_seq; lia|exact K]. Qed.

Lemma copy_loop_ok (R : nat -> Prop) r : R r -> forall fuel stack copied h,
  cinv R stack copied h -> (forall a par, In (a, par) stack -> below h0 r a) ->
  (length stack + rest copied <= fuel)%nat ->
  exists copied' h', copy_loop fuel (fl_items (n_past (get h0 r))) stack copied h = Ok (copied', h') /\
    cinv R [] copied' h' /\ (forall q, In q copied -> In q copied') /\
    (forall a par, In (a, par) stack -> In a (map fst copied')).
Proof.
  intros Rr. induction fuel as [|fuel IH]; intros stack copied h I B F.
  - destruct stack; [|cbn in F; lia]. exists copied, h. cbn. split; [reflexivity|]. split; [exact I|].
    split; [auto|intros a par []].
  - destruct stack as [|[a par] stack].
    + exists copied, h. cbn. split; [reflexivity|]. split; [exact I|]. split; [auto|intros a par []].
    + cbn [copy_loop]. destruct (lookup copied a) as [c|] eqn:L.
      * pose proof (cinv_again _ _ _ _ _ _ _ I L) as I'.
        edestruct IH as (copied' & h' & E & I2 & S1 & S2).
        -- exact I'.
        -- intros b q H. apply (B b q). right. exact H.
        -- cbn in F. lia.
        -- exists copied', h'. split; [exact E|]. split; [exact I2|]. split; [exact S1|].
           intros b q [[= <- <-]|H]; [|apply (S2 b q H)].
           apply in_key with c. apply S1. apply lookup_in. exact L.
      * pose proof (cinv_fresh _ r _ _ _ _ _ I L Rr (B a par (or_introl eq_refl))) as I'. cbn zeta in I'. destruct I' as [G I'].
        assert (Na : N a) by (apply (ci_stack _ _ _ _ I a par); left; reflexivity).
        assert (V : (n_value (get h a) <? 0) = false).
        { rewrite G. apply Z.ltb_ge. apply N_value. exact Na. }
        rewrite V. unfold copied_past, value in I'. rewrite <- G in I'.
        edestruct IH as (copied' & h' & E & I2 & S1 & S2).
        -- exact I'.
        -- intros b q H. apply in_app_or in H. destruct H as [H|H]; [|apply (B b q); right; exact H].
           apply in_rev, in_map_iff in H. destruct H as (ch & [= <- <-] & Hch). rewrite G in Hch.
           eapply below_step; [apply (B a par); left; reflexivity|exact Hch].
        -- assert (K : ~ In a (map fst copied)) by (apply lookup_none; exact L).
           rewrite (rest_cons a (length h) copied (N_bound a Na) K) in F.
           rewrite app_length, rev_length, map_length, G. unfold children in F. cbn [length] in F. lia.
        -- exists copied', h'. split; [exact E|]. split; [exact I2|]. split; [intros q Hq; apply S1; right; exact Hq|].
           intros b q [[= <- <-]|H]; [|apply (S2 b q); apply in_or_app; right; exact H].
           apply in_key with (length h). apply S1. left. reflexivity.
Qed.

Lemma weight_le keys l : (weight keys l <= list_sum (map (fun a => length (children h0 a)) l))%nat.
Proof. unfold weight. induction l as [|a l IH]; [cbn; lia|]. cbn [map list_sum fold_right].
  change (fold_right Init.Nat.add 0%nat) with list_sum. destruct (existsb _ keys); lia. Qed.
Lemma copy_fuel_enough copied h : extends h0 h -> (1 + rest copied <= copy_fuel h)%nat.
Proof.
  intros [l ->]. unfold copy_fuel. apply le_n_S. unfold rest. eapply Nat.le_trans; [apply weight_le|].
  rewrite fold_right_app.
  assert (X : forall (h1 : heap Z) k, (list_sum (map (fun a => length (children h1 a)) (seq 0 (length h1))) <=
       fold_right (fun n k => length (n_children n) + k) k h1)%nat).
  { clear. induction h1 as [|n h1 IH]; intros k; [cbn; lia|]. cbn [length seq map list_sum fold_right].
    change (fold_right Init.Nat.add 0%nat) with list_sum. rewrite <- seq_shift, map_map.
    specialize (IH k). unfold children, get in *. cbn [nth]. lia. }
  apply X.
Qed.

Lemma cinv_push R a stack copied h : cinv R stack copied h -> N a -> R a -> cinv R ((a, None) :: stack) copied h.
Proof.
  intros I Na Ra. destruct I. constructor; auto.
  intros b par [[= <- <-]|H]; [|apply ci_stack0; exact H]. split; [exact Na|]. split; [|exact Logic.I].
  exists a. split; [exact Ra|constructor].
Qed.

Lemma copy_roots_ok (R : nat -> Prop) : forall roots copied h,
  cinv R [] copied h -> (forall r, In r roots -> N r /\ R r) ->
  exists copied' h', copy_roots roots copied h = Ok (copied', h') /\ cinv R [] copied' h' /\
    (forall q, In q copied -> In q copied') /\ (forall r, In r roots -> In r (map fst copied')).
Proof.
  induction roots as [|r roots IH]; intros copied h I H.
  - exists copied, h. cbn. split; [reflexivity|]. split; [exact I|]. split; [auto|intros r []].
  - cbn [copy_roots]. unfold node_deepcopy.
    destruct (H r (or_introl eq_refl)) as [Nr Rr].
    assert (G : get h r = get h0 r) by (apply extends_get; [apply (ci_ext _ _ _ _ I)|apply N_bound, Nr]).
    rewrite G. edestruct (copy_loop_ok R r Rr (copy_fuel h) [(r, None)] copied h) as (copied1 & h1 & E & I1 & S1 & S2).
    + apply cinv_push; assumption.
    + intros a par [[= <- <-]|[]]. constructor.
    + cbn [length]. apply copy_fuel_enough. apply (ci_ext _ _ _ _ I).
    + rewrite E. cbn [bind]. edestruct (IH copied1 h1) as (copied' & h' & E2 & I2 & S3 & S4).
      * exact I1.
      * intros q Hq. apply H. right. exact Hq.
      * exists copied', h'. split; [exact E2|]. split; [exact I2|]. split; [auto|].
        intros q [<-|Hq]; [|apply S4, Hq]. destruct (key_in _ _ (S2 r None (or_introl eq_refl))) as (c & Hc).
        apply in_key with c. apply S3. exact Hc.
Qed.

(** ** the result *)
Record copied_graph (roots : list nat) (C : nat -> nat) (h : heap Z) : Prop := {
  cg_ext : extends h0 h;
  cg_new : forall a, N a -> (length h0 <= C a < length h)%nat;
  cg_inj : forall a b, N a -> N b -> C a = C b -> a = b;
  cg_onto : forall c, (length h0 <= c < length h)%nat -> exists a, N a /\ c = C a;
  cg_data : forall a, N a -> same_data (get h0 a) (get h (C a));
  cg_past : forall a, N a -> exists r, In r roots /\ below h0 r a /\ n_past (get h (C a)) = copied_past r a;
  cg_children : forall a, N a -> children h (C a) = map C (rev (children h0 a));
  cg_parents : forall a x, N a -> (In x (parents h (C a)) <-> exists b, N b /\ x = C b /\ In a (children h0 b));
  cg_parents_nodup : forall a, N a -> NoDup (parents h (C a))
}.

Lemma cinv_start R : cinv R [] [] h0.
Proof.
  constructor.
  - apply extends_refl.
  - cbn. lia.
  - reflexivity.
  - constructor.
  - intros a c [].
  - intros a c [].
  - intros a c [].
  - intros a c [].
  - intros x c H. lia.
  - intros c H. lia.
  - intros a par [].
Qed.

Lemma copy_roots_graph roots :
  (forall r, In r roots -> N r) -> (forall a, N a -> exists r, In r roots /\ below h0 r a) ->
  exists copied h, copy_roots roots [] h0 = Ok (copied, h) /\
    (forall a, N a -> lookup copied a = Some (copy_of copied a)) /\ copied_graph roots (copy_of copied) h.
Proof.
  intros HR HN. destruct (copy_roots_ok (fun r => In r roots) roots [] h0 (cinv_start _)) as (copied & h & E & I & _ & S); [auto|].
  exists copied, h. split; [exact E|].
  assert (K : forall a, N a -> In a (map fst copied)).
  { intros a Na. destruct (HN a Na) as (r & Hr & B). specialize (S r Hr). clear - I B S.
    induction B as [|r a b B IH Hb]; [exact S|]. specialize (IH S). destruct (key_in _ _ IH) as (c & Hc).
    destruct (ci_kids _ _ _ _ I a c Hc) as (done & E1 & _ & E3). unfold pending in E1. cbn in E1. rewrite app_nil_r in E1.
    apply E3. rewrite <- E1. apply -> in_rev. exact Hb. }
  assert (KC : forall a, N a -> In (a, copy_of copied a) copied).
  { intros a Na. destruct (key_in _ _ (K a Na)) as (c & Hc). rewrite (copy_of_in _ _ _ (ci_keys _ _ _ _ I) Hc). exact Hc. }
  assert (CH : forall a, N a -> children h (copy_of copied a) = map (copy_of copied) (rev (children h0 a))).
  { intros a Na. destruct (ci_kids _ _ _ _ I a _ (KC a Na)) as (done & E1 & E2 & _).
    unfold pending in E1. cbn in E1. rewrite app_nil_r in E1. rewrite E1. exact E2. }
  assert (ONTO : forall c, (length h0 <= c < length h)%nat -> exists a, N a /\ c = copy_of copied a).
  { intros c Hc. apply (cinv_val _ _ _ _ _ I) in Hc. apply in_map_iff in Hc. destruct Hc as ([a c'] & Ec & Hc). cbn in Ec. subst c'.
    exists a. split; [apply (ci_N _ _ _ _ I a c Hc)|]. symmetry. apply copy_of_in; [apply (ci_keys _ _ _ _ I)|exact Hc]. }
  assert (INJ : forall a b, N a -> N b -> copy_of copied a = copy_of copied b -> a = b).
  { intros a b Na Nb EC. apply (cinv_inj _ _ _ _ a b (copy_of copied a) I); [apply KC, Na|rewrite EC; apply KC, Nb]. }
  split; [intros a Na; apply in_lookup; [apply (ci_keys _ _ _ _ I)|apply KC, Na]|].
  constructor.
  - apply (ci_ext _ _ _ _ I).
  - intros a Na. apply (cinv_in_bound _ _ _ _ _ _ I (KC a Na)).
  - exact INJ.
  - exact ONTO.
  - intros a Na. apply (ci_data _ _ _ _ I _ _ (KC a Na)).
  - intros a Na. apply (ci_past _ _ _ _ I _ _ (KC a Na)).
  - exact CH.
  - intros a x Na. rewrite (ci_par _ _ _ _ I x _ (cinv_in_bound _ _ _ _ _ _ I (KC a Na))). split.
    + intros [B Hc]. destruct (ONTO x B) as (b & Nb & ->). exists b. split; [exact Nb|]. split; [reflexivity|].
      rewrite CH in Hc by exact Nb. apply in_map_iff in Hc. destruct Hc as (d & Ed & Hd). apply in_rev in Hd.
      rewrite (INJ a d Na (N_child b d Nb Hd) (eq_sym Ed)). exact Hd.
    + intros (b & Nb & -> & Hb). split; [apply (cinv_in_bound _ _ _ _ _ _ I (KC b Nb))|].
      rewrite CH by exact Nb. apply in_map. apply -> in_rev. exact Hb.
  - intros a Na. apply (ci_nd _ _ _ _ I). apply (cinv_in_bound _ _ _ _ _ _ I (KC a Na)).
Qed.
End Copy.
