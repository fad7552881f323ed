(** Tree.__eq__ decides whether two trees of a search have the same shape (C37). *)
From Verif Require Import Base BaseLemmas Cost Utils Fractions Load Tree TreeSpec HeapLemmas TreeInv TreeEq.
Open Scope Z_scope.

(** ** the search for a correspondence *)
Lemma edge_spec g a b : edge g a b = true <-> In (a, b) g \/ In (b, a) g.
Proof.
  unfold edge. rewrite existsb_exists. split.
  - intros ([x y] & I & E). cbn in E. apply orb_true_iff in E. rewrite !andb_true_iff, !Nat.eqb_eq in E. destruct E as [[-> ->]|[-> ->]]; auto.
  - intros [I|I]; [exists (a, b)|exists (b, a)]; (split; [exact I|]); cbn; rewrite !Nat.eqb_refl; auto using orb_true_r.
Qed.
Lemma edge_sym g a b : edge g a b = edge g b a.
Proof. apply eq_true_iff_eq. rewrite !edge_spec. tauto. Qed.
Lemma vertices_spec g a : In a (vertices g) <-> exists b, edge g a b = true.
Proof.
  unfold vertices. rewrite nodup_In, in_app_iff, !in_map_iff. split.
  - intros [([x y] & <- & I)|([x y] & <- & I)]; cbn; eexists; apply edge_spec; eauto.
  - intros (b & E). apply edge_spec in E. destruct E as [I|I]; [left|right]; eexists; (split; [|exact I]); reflexivity.
Qed.
Lemma vertices_nodup g : NoDup (vertices g).
Proof. apply NoDup_nodup. Qed.

Section Pairs.
Variables g1 g2 : list (nat * nat).
Definition agrees (p q : nat * nat) : Prop := edge g1 (fst p) (fst q) = edge g2 (snd p) (snd q).

Lemma fits_spec pairs a b : fits g1 g2 pairs a b = true <-> agrees (a, b) (a, b) /\ Forall (agrees (a, b)) pairs.
Proof.
  unfold fits, agrees. rewrite andb_true_iff, Bool.eqb_true_iff, forallb_forall, Forall_forall. cbn.
  split; intros [A B]; (split; [exact A|]); intros q Hq; specialize (B q Hq); apply Bool.eqb_true_iff; exact B.
Qed.
Lemma filter_out (b : nat) l : NoDup l -> In b l -> Permutation l (b :: filter (fun x => negb (x =? b)%nat) l).
Proof.
  induction l as [|x l IH]; intros N I; [destruct I|]. inversion N; subst. cbn. destruct (Nat.eqb_spec x b) as [->|D]; cbn [negb].
  - constructor. replace (filter _ l) with l; [reflexivity|]. symmetry. clear - H1. induction l as [|y l IH]; [reflexivity|]. cbn.
    destruct (Nat.eqb_spec y b) as [->|D]; [exfalso; apply H1; left; reflexivity|]. cbn. f_equal. apply IH. intros X. apply H1. right. exact X.
  - destruct I as [E|I]; [congruence|]. rewrite (IH H2 I) at 1. apply perm_swap.
Qed.
Lemma pair_up_spec : forall todo pairs free, NoDup free -> (forall p q, In p pairs -> In q pairs -> agrees p q) ->
  (pair_up g1 g2 pairs todo free = true <->
   exists more, map fst more = todo /\ Permutation (map snd more) free /\ forall p q, In p (more ++ pairs) -> In q (more ++ pairs) -> agrees p q).
Proof.
  induction todo as [|a todo IH]; intros pairs free N A; cbn [pair_up].
  - split.
    + destruct free; [|discriminate]. intros _. exists []. repeat split; auto.
    + intros (more & E & P & _). destruct more; [|discriminate]. apply Permutation_nil in P. subst. reflexivity.
  - rewrite existsb_exists. split.
    + intros (b & Hb & E). destruct (fits g1 g2 pairs a b) eqn:F; [|discriminate]. apply fits_spec in F. destruct F as [F1 F2]. rewrite Forall_forall in F2.
      assert (A' : forall p q, In p ((a, b) :: pairs) -> In q ((a, b) :: pairs) -> agrees p q).
      { intros p q [<-|Hp] [<-|Hq]; auto. specialize (F2 p Hp). unfold agrees in *. rewrite (edge_sym g1), (edge_sym g2). exact F2. }
      apply IH in E; [|apply NoDup_filter, N|exact A']. destruct E as (more & E1 & E2 & E3). exists ((a, b) :: more). split; [cbn; rewrite E1; reflexivity|].
      split; [cbn; rewrite E2; symmetry; apply filter_out; assumption|].
      intros p q Hp Hq. apply E3; apply in_app_iff; [cbn in Hp; rewrite in_app_iff in Hp|cbn in Hq; rewrite in_app_iff in Hq]; cbn; tauto.
    + intros (more & E1 & E2 & E3). destruct more as [|[a' b] more]; [discriminate|]. cbn in E1. injection E1 as -> E1. cbn in E2.
      assert (Hb : In b free) by (apply (Permutation_in _ E2); left; reflexivity). exists b. split; [exact Hb|].
      assert (F : fits g1 g2 pairs a b = true).
      { apply fits_spec. split; [apply E3; left; reflexivity|]. apply Forall_forall. intros q Hq. apply E3; [left; reflexivity|]. right. apply in_app_iff. auto. }
      rewrite F. apply IH; [apply NoDup_filter, N| |].
      * intros p q Hp Hq. apply E3; cbn; rewrite in_app_iff; cbn in Hp, Hq; tauto.
      * exists more. split; [exact E1|]. split.
        -- apply (Permutation_cons_inv (a := b)). rewrite E2. apply filter_out; assumption.
        -- intros p q Hp Hq. apply E3; cbn; rewrite in_app_iff in *; cbn in Hp, Hq; tauto.
Qed.
End Pairs.

(** looking up in a correspondence *)
Definition partner (l : list (nat * nat)) (a : nat) : nat := match find (fun q => (fst q =? a)%nat) l with Some q => snd q | None => O end.
Lemma partner_in l a b : NoDup (map fst l) -> In (a, b) l -> partner l a = b.
Proof.
  unfold partner. induction l as [|[x y] l IH]; intros N I; [destruct I|]. cbn in N. inversion N; subst. cbn. destruct (Nat.eqb_spec x a) as [->|D].
  - destruct I as [E|I]; [injection E as ->; reflexivity|]. exfalso. apply H1. apply in_map_iff. exists (a, b). auto.
  - destruct I as [E|I]; [congruence|]. apply IH; assumption.
Qed.
Definition flipped (l : list (nat * nat)) : list (nat * nat) := map (fun q => (snd q, fst q)) l.

Lemma is_isomorphic_spec g1 g2 : is_isomorphic g1 g2 = true <-> exists f g : nat -> nat,
  (forall a, In a (vertices g1) -> In (f a) (vertices g2) /\ g (f a) = a) /\
  (forall b, In b (vertices g2) -> In (g b) (vertices g1) /\ f (g b) = b) /\
  (forall a b, In a (vertices g1) -> In b (vertices g1) -> edge g1 a b = edge g2 (f a) (f b)).
Proof.
  unfold is_isomorphic. rewrite andb_true_iff, Nat.eqb_eq, pair_up_spec by (try apply vertices_nodup; intros p q []). split.
  - intros (_ & more & E1 & E2 & E3). rewrite app_nil_r in E3.
    assert (N1 : NoDup (map fst more)) by (rewrite E1; apply vertices_nodup).
    assert (N2 : NoDup (map fst (flipped more))).
    { unfold flipped. rewrite map_map. cbn. apply (Permutation_NoDup (Permutation_sym E2)), vertices_nodup. }
    assert (I1 : forall a, In a (vertices g1) -> exists b, In (a, b) more).
    { intros a Ha. rewrite <- E1 in Ha. apply in_map_iff in Ha. destruct Ha as ([x y] & <- & I). eauto. }
    assert (I2 : forall b, In b (vertices g2) -> exists a, In (a, b) more).
    { intros b Hb. apply (Permutation_in _ (Permutation_sym E2)) in Hb. apply in_map_iff in Hb. destruct Hb as ([x y] & <- & I). eauto. }
    assert (J1 : forall a b, In (a, b) more -> In a (vertices g1)) by (intros a b I; rewrite <- E1; apply in_map_iff; exists (a, b); auto).
    assert (J2 : forall a b, In (a, b) more -> In b (vertices g2)) by (intros a b I; apply (Permutation_in _ E2); apply in_map_iff; exists (a, b); auto).
    assert (F1 : forall a b, In (a, b) more -> partner more a = b) by (intros a b; apply partner_in, N1).
    assert (F2 : forall a b, In (a, b) more -> partner (flipped more) b = a).
    { intros a b I. apply partner_in; [exact N2|]. apply in_map_iff. exists (a, b). auto. }
    exists (partner more), (partner (flipped more)). repeat split.
    + destruct (I1 a H) as (b & I). rewrite (F1 a b I). eauto.
    + destruct (I1 a H) as (b & I). rewrite (F1 a b I). eauto.
    + destruct (I2 b H) as (a & I). rewrite (F2 a b I). eauto.
    + destruct (I2 b H) as (a & I). rewrite (F2 a b I). eauto.
    + intros a b Ha Hb. destruct (I1 a Ha) as (a' & Ia). destruct (I1 b Hb) as (b' & Ib). rewrite (F1 _ _ Ia), (F1 _ _ Ib). apply (E3 (a, a') (b, b') Ia Ib).
  - intros (f & g & F & G & E).
    assert (P : Permutation (map f (vertices g1)) (vertices g2)).
    { apply NoDup_Permutation; [|apply vertices_nodup|].
      - assert (K : forall l, NoDup l -> incl l (vertices g1) -> NoDup (map f l)).
        { induction 1 as [|a l NI _ IH]; intros SU; cbn; [constructor|]. constructor.
          - rewrite in_map_iff. intros (b & EQ & Hb). apply NI. rewrite <- (proj2 (F a (SU a (or_introl eq_refl)))), <- EQ, (proj2 (F b (SU b (or_intror Hb)))). exact Hb.
          - apply IH. intros b Hb. apply SU. right. exact Hb. }
        apply K; [apply vertices_nodup|apply incl_refl].
      - intros b. rewrite in_map_iff. split; [intros (a & <- & Ha); apply F, Ha|]. intros Hb. exists (g b). destruct (G b Hb). auto. }
    split; [rewrite <- (Permutation_length P), map_length; reflexivity|].
    exists (map (fun a => (a, f a)) (vertices g1)). rewrite !map_map. cbn. split; [apply map_id|]. split; [exact P|].
    rewrite app_nil_r. intros p q Hp Hq. apply in_map_iff in Hp, Hq. destruct Hp as (a & <- & Ha), Hq as (b & <- & Hb). unfold agrees. cbn. apply E; assumption.
Qed.

(** ** the graph of a tree *)
Inductive path (h : heap Z) : nat -> nat -> nat -> Prop :=
| path_here r : path h O r r
| path_on n r x a : In x (children h r) -> path h n x a -> path h (S n) r a.
Lemma path_snoc h n r a b : path h n r a -> In b (children h a) -> path h (S n) r b.
Proof. induction 1 as [r|n r x a Hx P IH]; intros Hb; [econstructor; [exact Hb|constructor]|]. econstructor; [exact Hx|]. apply IH, Hb. Qed.
Lemma below_path h r a : below h r a <-> exists n, path h n r a.
Proof.
  split.
  - induction 1 as [r|r a b B [n P] Hb]; [exists O; constructor|]. exists (S n). eapply path_snoc; eassumption.
  - intros (n & P). induction P as [r|n r x a Hx P IH]; [constructor|]. clear P. assert (X : below h r x) by (econstructor; [constructor|exact Hx]).
    clear - IH X. induction IH as [x|x y z B IHB Hc]; [exact X|]. econstructor; [apply IHB, X|exact Hc].
Qed.
Lemma add_edges_in h : forall fuel r b c, In (b, c) (add_edges h fuel r) <-> exists n, (n < fuel)%nat /\ path h n r b /\ In c (children h b).
Proof.
  induction fuel as [|fuel IH]; intros r b c; cbn [add_edges]; change (n_children (get h r)) with (children h r); [split; [intros []|intros (n & L & _); lia]|].
  rewrite in_flat_map. split.
  - intros (x & Hx & [E|I]).
    + injection E as <- <-. exists O. split; [lia|]. split; [constructor|exact Hx].
    + apply IH in I. destruct I as (n & L & P & Hc). exists (S n). split; [lia|]. split; [econstructor; eassumption|exact Hc].
  - intros (n & L & P & Hc). inversion P; subst.
    + exists c. split; [exact Hc|left; reflexivity].
    + exists x. split; [assumption|]. right. apply IH. exists n0. split; [lia|]. split; assumption.
Qed.
Lemma path_short h t N n r a : wf h t N -> N r -> path h n r a -> (n < length h)%nat.
Proof.
  intros W Nr P. assert (X : exists l, length l = S n /\ NoDup l /\ forall x, In x l -> N x /\ exists lr lx, level h r = Some lr /\ level h x = Some lx /\ lr <= lx).
  { clear - W Nr P. induction P as [r|n r x a Hx P IH].
    - exists [r]. split; [reflexivity|]. split; [repeat constructor; intros []|]. intros x [<-|[]]. split; [exact Nr|].
      destruct (wf_level _ _ _ W r Nr) as (l & E & _). exists l, l. repeat split; auto; lia.
    - assert (Nx : N x) by (apply (wf_child _ _ _ W r); assumption). destruct (IH Nx) as (l & L & ND & F). exists (r :: l). split; [cbn; lia|].
      destruct (wf_edges _ _ _ W r x Nr Hx) as (lr & lx & Er & Ex & LT). split.
      + constructor; [|exact ND]. intros I. destruct (F r I) as (_ & a1 & b1 & E1 & E2 & LE). rewrite Ex in E1. rewrite Er in E2. injection E1 as <-. injection E2 as <-. lia.
      + intros y [<-|I]; [split; [exact Nr|]; exists lr, lr; repeat split; auto; lia|]. destruct (F y I) as (Ny & a1 & b1 & E1 & E2 & LE). split; [exact Ny|].
        exists lr, b1. rewrite Ex in E1. injection E1 as <-. repeat split; auto. lia. }
  destruct X as (l & L & ND & F). assert (incl l (seq 0 (length h))).
  { intros x Hx. apply in_seq. destruct (F x Hx) as [Nx _]. pose proof (wf_bound _ _ _ W x Nx). lia. }
  pose proof (NoDup_incl_length ND H) as LE. rewrite seq_length in LE. lia.
Qed.
Lemma to_nx_graph_in h t N a b : wf h t N -> (In (a, b) (to_nx_graph h t) <-> in_tree h t a /\ In b (children h a)).
Proof.
  intros W. unfold to_nx_graph. rewrite in_flat_map. split.
  - intros (r & Hr & I). apply add_edges_in in I. destruct I as (n & _ & P & Hb). split; [|exact Hb]. exists r. split; [exact Hr|]. apply below_path. eauto.
  - intros ((r & Hr & B) & Hb). exists r. split; [exact Hr|]. apply add_edges_in. apply below_path in B. destruct B as (n & P). exists n.
    split; [|split; [exact P|exact Hb]]. apply (path_short h t N n r a W); [apply (wf_roots _ _ _ W), Hr|exact P].
Qed.
Lemma edge_adjacent h t N a b : wf h t N -> (edge (to_nx_graph h t) a b = true <-> adjacent h t a b).
Proof.
  intros W. rewrite edge_spec, !(to_nx_graph_in h t N) by exact W. unfold adjacent. split.
  - assert (K : forall x y, in_tree h t x -> In y (children h x) -> in_tree h t y).
    { intros x y (r & Hr & B) Hy. exists r. split; [exact Hr|econstructor; eassumption]. }
    intros [[A B]|[A B]]; eauto.
  - intros (A & B & [C|C]); auto.
Qed.
Lemma vertices_edge h t N a : wf h t N -> (In a (vertices (to_nx_graph h t)) <-> has_edge h t a).
Proof. intros W. rewrite vertices_spec. unfold has_edge. split; intros (b & E); exists b; apply (edge_adjacent h t N a b W); exact E. Qed.

Lemma tree_eq_isomorphic h t u N M : wf h t N -> wf h u M -> (tree_eq h t u = true <-> isomorphic h t u).
Proof.
  intros W W'. unfold tree_eq, isomorphic. rewrite is_isomorphic_spec. split; intros (f & g & F & G & E); exists f, g.
  - split; [|split].
    + intros a Ha. apply (vertices_edge h t N _ W) in Ha. split; [apply (vertices_edge h u M _ W')|]; apply F, Ha.
    + intros b Hb. apply (vertices_edge h u M _ W') in Hb. split; [apply (vertices_edge h t N _ W)|]; apply G, Hb.
    + intros a b Ha Hb. apply (vertices_edge h t N _ W) in Ha, Hb. rewrite <- (edge_adjacent h t N _ _ W), <- (edge_adjacent h u M _ _ W'), (E a b Ha Hb). reflexivity.
  - split; [|split].
    + intros a Ha. apply (vertices_edge h t N _ W) in Ha. split; [apply (vertices_edge h u M _ W')|]; apply F, Ha.
    + intros b Hb. apply (vertices_edge h u M _ W') in Hb. split; [apply (vertices_edge h t N _ W)|]; apply G, Hb.
    + intros a b Ha Hb. apply (vertices_edge h t N _ W) in Ha, Hb. apply eq_true_iff_eq.
      rewrite (edge_adjacent h t N _ _ W), (edge_adjacent h u M _ _ W'). apply E; assumption.
Qed.
