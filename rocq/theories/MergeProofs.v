(** expand_merge (Expand.v) replaces parents by three-way mergers. *)
From Verif Require Import Base BaseLemmas Cost CostSpec CostProofs Utils Fractions FractionsProofs Load Tree TreeSpec HeapLemmas Expand ExpandSpec BranchProofs LevelProofs BuildProofs ExpandProofs.
From Coq Require Import QArith Qcanon.
Open Scope Z_scope.

Lemma share_sent h p c : In c (kids h p) -> share h p = sent h p.
Proof. unfold share, sent, over. destruct (kids h p); [intros []|reflexivity]. Qed.
Lemma sent_same h h' p : n_value (get h' p) = n_value (get h p) -> length (kids h' p) = length (kids h p) -> sent h' p = sent h p.
Proof. unfold sent. intros -> ->. reflexivity. Qed.
Lemma qcsum_app a b : qcsum (a ++ b) = (qcsum a + qcsum b)%Qc.
Proof. induction a as [|x a IH]; cbn [app qcsum fold_right]; [fold (qcsum b); ring|]. fold (qcsum (a ++ b)) (qcsum a). rewrite IH. ring. Qed.

Lemma nodup_app_inv {A} (l l' : list A) : NoDup (l ++ l') -> NoDup l /\ NoDup l' /\ forall x, In x l -> ~ In x l'.
Proof.
  induction l as [|y l IH]; cbn [app]; intros D; [split; [constructor|]; split; [exact D|intros x []]|]. inversion D as [|? ? N D']; subst. destruct (IH D') as (D1 & D2 & D3).
  split; [constructor; [intros I; apply N, in_app_iff; auto|exact D1]|]. split; [exact D2|]. intros x [->|I]; [intros J; apply N, in_app_iff; auto|apply D3, I].
Qed.
Lemma NoDup_snoc {A} (x : A) l : ~ In x l -> NoDup l -> NoDup (l ++ [x]).
Proof. intros N D. apply (Permutation_NoDup (Permutation_cons_append l x)). constructor; assumption. Qed.
Definition without (a : nat) (l : list nat) : list nat := filter (fun c => negb (c =? a)%nat) l.
Lemma without_length a l : (length (without a l) + cnt a l = length l)%nat.
Proof.
  induction l as [|y l IH]; [reflexivity|]. unfold without in *. cbn [filter count_occ length]. destruct (Nat.eqb_spec y a) as [->|N]; destruct (Nat.eq_dec _ _); try congruence; cbn [negb length]; lia.
Qed.
Lemma without_cnt a l y : cnt y (without a l) = if (y =? a)%nat then O else cnt y l.
Proof.
  induction l as [|z l IH]; [destruct (y =? a)%nat; reflexivity|]. unfold without in *. cbn [filter]. destruct (Nat.eqb_spec z a) as [Ez|N]; cbn [negb count_occ]; rewrite IH; destruct (Nat.eqb_spec y a) as [Ey|N2]; try destruct (Nat.eq_dec z y); congruence.
Qed.

(** one round *)
Record round (h h' : heap Qc) (a x y z : nat) (rest : list nat) : Prop := {
  r_length : length h' = S (length h);
  r_parents : pars h a = rest ++ [z; y; x];
  r_merger : exists past, get h' (length h) = MkNode (sent h x + sent h y + sent h z)%Qc (length h) (n_level (get h a)) past [x; y; z] [a] [] 0;
  r_node : get h' a = set_parents (rest ++ [length h]) (get h a);
  r_other : forall w, (w < length h)%nat -> w <> a ->
    get h' w = set_children (if in_dec Nat.eq_dec w [x; y; z] then without a (kids h w ++ [length h]) else kids h w) (get h w)
}.

Lemma upd_get (h : heap Qc) i f j : (i < length h)%nat -> get (upd i f h) j = if (i =? j)%nat then f (get h j) else get h j.
Proof. intros B. destruct (Nat.eqb_spec i j) as [<-|N]; [apply get_upd_same, B|apply get_upd_other, N]. Qed.

Ltac gets := repeat first [rewrite get_upd_same by (rewrite ?upd_length; lia)|rewrite get_upd_other by (congruence || lia)].
Lemma merge_round h a : links_agree h -> mergeable h a -> (3 <= length (pars h a))%nat ->
  exists h' x y z rest, merge_three h a = Ok h' /\ round h h' a x y z rest.
Proof.
  intros LA M H3. destruct M. unfold merge_three. pose proof (rev_involutive (pars h a)) as RI.
  destruct (rev (pars h a)) as [|x [|y [|z rest]]] eqn:R; try (rewrite <- RI in H3; cbn in H3; lia). cbn [rev] in RI. rewrite <- !app_assoc in RI. cbn [app] in RI.
  assert (I3 : forall p, In p [x; y; z] -> In p (pars h a)) by (intros p I; rewrite <- RI; apply in_app_iff; right; cbn [In] in *; tauto).
  assert (ND : NoDup [z; y; x]) by (rewrite <- RI in me_single; apply nodup_app_inv in me_single; apply me_single).
  inversion ND as [|? ? Nz ND']; subst. inversion ND' as [|? ? Ny ND'']; subst. cbn [In] in Nz, Ny.
  assert (Nzy : z <> y) by (intros E; apply Nz; auto). assert (Nzx : z <> x) by (intros E; apply Nz; auto). assert (Nyx : y <> x) by (intros E; apply Ny; auto). clear Nz Ny ND ND' ND''.
  assert (Na : forall p, In p [x; y; z] -> p <> a) by (intros p I ->; apply me_self, I3, I).
  assert (Kp : forall p, In p [x; y; z] -> In a (kids h p)).
  { intros p I. apply (count_occ_In Nat.eq_dec). rewrite (LA p a). apply count_occ_In, I3, I. }
  assert (Bp : forall p, In p [x; y; z] -> (p < length h)%nat).
  { intros p I. destruct (Nat.lt_ge_cases p (length h)) as [B|B]; [exact B|]. specialize (Kp p I). rewrite get_beyond in Kp by exact B. destruct Kp. }
  set (h1 := upd a (set_parents (rev rest)) h).
  assert (G1 : forall w, get h1 w = if (a =? w)%nat then set_parents (rev rest) (get h w) else get h w) by (intros w; apply upd_get; exact me_node).
  assert (F1 : forall w, kids h1 w = kids h w /\ n_value (get h1 w) = n_value (get h w) /\ n_level (get h1 w) = n_level (get h w)).
  { intros w. rewrite G1. destruct (a =? w)%nat; auto. }
  assert (L1 : length h1 = length h) by apply upd_length.
  assert (Sh : forall p, In p [x; y; z] -> share h1 p = sent h p).
  { intros p I. destruct (F1 p) as (Fk & Fv & _). rewrite (share_sent h1 p a); [apply sent_same; [exact Fv|rewrite Fk; reflexivity]|rewrite Fk; apply Kp, I]. }
  unfold merge_nodes. cbn [fold_left]. rewrite (Sh x), (Sh y), (Sh z) by (cbn; tauto).
  assert (LV : forall p, In p [x; y; z] -> exists l, level_of h1 p = Ok l).
  { intros p I. destruct (me_parents p (I3 p I)) as (_ & l & E). exists l. unfold level_of. destruct (F1 p) as (_ & _ & ->). rewrite E. reflexivity. }
  destruct (LV x ltac:(cbn; tauto)) as (lx & Elx). destruct (LV y ltac:(cbn; tauto)) as (ly & Ely). destruct (LV z ltac:(cbn; tauto)) as (lz & Elz).
  cbn [map_res]. rewrite Elx. cbn [bind]. rewrite Ely. cbn [bind]. rewrite Elz. cbn [bind zmax fold_left].
  assert (S0 : forall p, In p [x; y; z] -> (Q2Qc 0 <= sent h p)%Qc) by (intros p I; apply nonneg_over; [apply me_parents, I3, I|lia]).
  assert (E0 : (frac_of_Z 0 + sent h x + sent h y + sent h z = sent h x + sent h y + sent h z)%Qc) by (rewrite foz_0; ring). rewrite E0.
  destruct (new_ok h1 (sent h x + sent h y + sent h z)%Qc (Some (Z.max (Z.max lx ly) lz + 1)) 0) as (h2 & E2).
  { apply negative_false. repeat apply nonneg_plus; apply S0; cbn; tauto. }
  rewrite E2. cbn [bind length Nat.leb Nat.ltb]. destruct (effect_new _ _ _ _ _ _ E2) as (_ & L2 & EF2 & G2). rewrite L1 in L2, G2 |- *. set (c := length h) in *.
  assert (S2 : forall w, (w < c)%nat -> get h2 w = get h1 w).
  { intros w Hw. destruct EF2 as [_ EF2]. rewrite EF2 by (rewrite L1; exact Hw). rewrite app_nil_r. apply relinked_id. }
  assert (Bx : (x < c)%nat) by (apply Bp; cbn; tauto). assert (By : (y < c)%nat) by (apply Bp; cbn; tauto). assert (Bz : (z < c)%nat) by (apply Bp; cbn; tauto).
  assert (Nax : x <> a) by (apply Na; cbn; tauto). assert (Nay : y <> a) by (apply Na; cbn; tauto). assert (Naz : z <> a) by (apply Na; cbn; tauto).
  cbn [fold_left bind].
  eexists _, x, y, z, (rev rest). split; [reflexivity|]. unfold drop_child.
  assert (Eqs : forall w, (w < c)%nat -> (c =? w)%nat = false) by (intros w Hw; apply Nat.eqb_neq; lia).
  assert (Eqs' : forall w, (w < c)%nat -> (w =? c)%nat = false) by (intros w Hw; apply Nat.eqb_neq; lia).
  constructor.
  - rewrite !upd_length. exact L2.
  - symmetry. exact RI.
  - eexists. fold c. gets. rewrite G2. cbn [add_parent add_child set_parents set_children set_level n_parents n_children n_level n_value n_id n_past n_expands n_levels_to_add app].
    rewrite (S2 a me_node). destruct (F1 a) as (_ & _ & ->). reflexivity.
  - fold c. gets. rewrite S2, G1, Nat.eqb_refl by exact me_node. reflexivity.
  - intros w Hw Nw. fold c. fold c in Hw. destruct (in_dec Nat.eq_dec w [x; y; z]) as [I|I].
    + cbn [In] in I. destruct I as [<-|[<-|[<-|[]]]]; gets; (rewrite S2, G1, (proj2 (Nat.eqb_neq a _)) by (congruence || assumption)); reflexivity.
    + cbn [In] in I. assert (x <> w) by tauto. assert (y <> w) by tauto. assert (z <> w) by tauto. gets. rewrite S2, G1, (proj2 (Nat.eqb_neq a _)) by (congruence || assumption). destruct (get h w); reflexivity.
Qed.

Section Round.
Variables (h h' : heap Qc) (a x y z : nat) (rest : list nat).
Hypothesis LA : links_agree h.
Hypothesis M : mergeable h a.
Hypothesis R : round h h' a x y z rest.
Let c := length h.

Lemma round_members p : In p [x; y; z] -> In p (pars h a) /\ p <> a /\ (p < c)%nat /\ cnt a (kids h p) = 1%nat.
Proof.
  intros I. assert (J : In p (pars h a)) by (rewrite (r_parents _ _ _ _ _ _ _ R); apply in_app_iff; right; cbn [In] in *; tauto). destruct M.
  assert (C1 : cnt a (kids h p) = 1%nat).
  { rewrite (LA p a). apply (proj1 (NoDup_count_occ' Nat.eq_dec _) me_single). exact J. }
  split; [exact J|]. split; [intros ->; contradiction|]. split; [|exact C1].
  destruct (Nat.lt_ge_cases p (length h)) as [B|B]; [exact B|]. rewrite get_beyond in C1 by exact B. discriminate.
Qed.
Lemma round_kids w : (w < c)%nat -> w <> a -> length (kids h' w) = length (kids h w) /\ (forall v, cnt v (kids h' w) = if in_dec Nat.eq_dec w [x; y; z] then (if (v =? a)%nat then 0 else if (v =? c)%nat then 1 else cnt v (kids h w))%nat else cnt v (kids h w)).
Proof.
  intros B N. rewrite (r_other _ _ _ _ _ _ _ R w B N). cbn [set_children n_children]. destruct (in_dec Nat.eq_dec w [x; y; z]) as [I|I]; [|auto].
  destruct (round_members w I) as (_ & _ & _ & C1). pose proof (me_node _ _ M) as Ba. split.
  - pose proof (without_length a (kids h w ++ [length h])) as WL. rewrite app_length, cnt_app, C1 in WL. cbn [length count_occ] in WL. destruct (Nat.eq_dec (length h) a); lia.
  - intros v. rewrite without_cnt. destruct (Nat.eqb_spec v a); [reflexivity|]. rewrite cnt_app. cbn [count_occ]. fold c. destruct (Nat.eqb_spec v c) as [->|Nc].
    + destruct (Nat.eq_dec c c); [|congruence]. rewrite (proj1 (count_occ_not_In _ _ _)); [reflexivity|]. intros J. apply (links_range h w c LA) in J. unfold c in J. lia.
    + destruct (Nat.eq_dec c v); [congruence|lia].
Qed.
Lemma round_value w : (w < c)%nat -> n_value (get h' w) = n_value (get h w) /\ n_level (get h' w) = n_level (get h w) /\ length (kids h' w) = length (kids h w).
Proof.
  intros B. destruct (Nat.eq_dec w a) as [->|N]; [rewrite (r_node _ _ _ _ _ _ _ R); auto|]. split; [|split; [|apply round_kids; assumption]]; rewrite (r_other _ _ _ _ _ _ _ R w B N); reflexivity.
Qed.
Lemma round_sent w : (w < c)%nat -> sent h' w = sent h w.
Proof. intros B. destruct (round_value w B) as (E1 & _ & E2). apply sent_same; assumption. Qed.
Lemma round_pars w : (w < c)%nat -> w <> a -> pars h' w = pars h w.
Proof. intros B N. rewrite (r_other _ _ _ _ _ _ _ R w B N). reflexivity. Qed.
Lemma round_distinct : NoDup [x; y; z] /\ (forall p, In p rest -> ~ In p [x; y; z]) /\ NoDup rest.
Proof.
  destruct M. rewrite (r_parents _ _ _ _ _ _ _ R) in me_single. 
  assert (P : Permutation (rest ++ [z; y; x]) (rest ++ [x; y; z])) by (apply Permutation_app_head; apply (Permutation_rev [z; y; x])).
  apply (Permutation_NoDup P) in me_single. apply nodup_app_inv in me_single. tauto.
Qed.

Lemma round_links : links_agree h'.
Proof.
  pose proof (me_node _ _ M) as Ba. destruct (r_merger _ _ _ _ _ _ _ R) as (past & RM). destruct round_distinct as (D1 & D2 & D3).
  assert (BL : length h' = S c) by apply (r_length _ _ _ _ _ _ _ R).
  assert (PB : forall u v, In v (pars h u) -> (v < c)%nat).
  { intros u v I. destruct (Nat.lt_ge_cases v (length h)) as [B|B]; [exact B|]. apply (count_occ_In Nat.eq_dec) in I. rewrite <- (LA v u), get_beyond in I by exact B. cbn in I. lia. }
  assert (KB : forall u v, In v (kids h u) -> (v < c)%nat) by (intros u v I; apply (links_range h u v LA I)).
  intros u v.
  assert (PV : cnt u (pars h' v) = if (v =? c)%nat then (if in_dec Nat.eq_dec u [x; y; z] then 1 else 0)%nat else if (v =? a)%nat then (if (u =? c)%nat then 1 else if in_dec Nat.eq_dec u [x; y; z] then 0 else cnt u (pars h a))%nat else cnt u (pars h v)).
  { destruct (Nat.eqb_spec v c) as [->|Nc].
    - unfold c at 1. rewrite RM. cbn [n_parents]. destruct (in_dec Nat.eq_dec u [x; y; z]) as [I|I]; [apply (proj1 (NoDup_count_occ' Nat.eq_dec _) D1), I|apply count_occ_not_In, I].
    - destruct (Nat.eqb_spec v a) as [->|Na].
      + rewrite (r_node _ _ _ _ _ _ _ R). cbn [set_parents n_parents]. fold c. rewrite cnt_app. cbn [count_occ].
        destruct (Nat.eqb_spec u c) as [->|Nu].
        * destruct (Nat.eq_dec c c); [|congruence]. rewrite (proj1 (count_occ_not_In _ _ _)); [reflexivity|]. intros I. specialize (PB a c). rewrite (r_parents _ _ _ _ _ _ _ R) in PB. specialize (PB (proj2 (in_app_iff _ _ _) (or_introl I))). lia.
        * destruct (Nat.eq_dec c u); [congruence|]. rewrite Nat.add_0_r. destruct (in_dec Nat.eq_dec u [x; y; z]) as [I|I]; [apply count_occ_not_In; intros J; apply (D2 u J I)|].
          rewrite (r_parents _ _ _ _ _ _ _ R), cnt_app. rewrite (proj1 (count_occ_not_In _ [z; y; x] u)); [lia|]. cbn [In] in *. tauto.
      + destruct (Nat.lt_ge_cases v c) as [B|B]; [rewrite round_pars by assumption; reflexivity|]. rewrite !get_beyond by (unfold c in *; lia). reflexivity. }
  rewrite PV. clear PV. destruct (Nat.lt_ge_cases u c) as [Bu|Bu].
  - rewrite (proj2 (Nat.eqb_neq u c)) by lia. destruct (Nat.eq_dec u a) as [->|Nu].
    + rewrite (r_node _ _ _ _ _ _ _ R). cbn [set_parents n_children]. destruct (in_dec Nat.eq_dec a [x; y; z]) as [I|I]; [destruct (round_members a I) as (_ & E & _); congruence|].
      destruct (Nat.eqb_spec v c) as [->|Nc]; [apply count_occ_not_In; intros J; apply KB in J; lia|]. destruct (Nat.eqb_spec v a) as [->|Na]; apply LA.
    + destruct (round_kids u Bu Nu) as (_ & KU). rewrite KU. destruct (in_dec Nat.eq_dec u [x; y; z]) as [I|I].
      * destruct (Nat.eqb_spec v c) as [->|Nc]; [rewrite (proj2 (Nat.eqb_neq c a)) by lia; reflexivity|]. destruct (v =? a)%nat; [reflexivity|apply LA].
      * destruct (Nat.eqb_spec v c) as [->|Nc]; [apply count_occ_not_In; intros J; apply KB in J; lia|]. destruct (Nat.eqb_spec v a) as [->|Na]; apply LA.
  - destruct (in_dec Nat.eq_dec u [x; y; z]) as [I|I]; [apply round_members in I; lia|]. destruct (Nat.eq_dec u c) as [->|Nu].
    + unfold c at 1. rewrite RM. cbn [n_children count_occ]. rewrite Nat.eqb_refl. destruct (Nat.eqb_spec v c) as [->|Nc]; [destruct (Nat.eq_dec a c); [lia|reflexivity]|].
      destruct (Nat.eqb_spec v a) as [->|Na]; destruct (Nat.eq_dec _ _); try congruence. symmetry. apply count_occ_not_In. intros J. apply PB in J. lia.
    + rewrite (get_beyond h' u) by lia. cbn [dead_node n_children count_occ]. rewrite (proj2 (Nat.eqb_neq u c)) by exact Nu.
      destruct (v =? c)%nat; [reflexivity|]. destruct (v =? a)%nat; symmetry; apply count_occ_not_In; intros J; apply PB in J; lia.
Qed.

Lemma round_mergeable : mergeable h' a.
Proof.
  pose proof (me_node _ _ M) as Ba. destruct (r_merger _ _ _ _ _ _ _ R) as (past & RM). destruct round_distinct as (D1 & D2 & D3). pose proof (r_node _ _ _ _ _ _ _ R) as RN.
  pose proof (r_parents _ _ _ _ _ _ _ R) as RP.
  assert (Pa : pars h' a = rest ++ [c]) by (rewrite RN; reflexivity).
  assert (Rb : forall p, In p rest -> (p < c)%nat /\ In p (pars h a)).
  { intros p I. assert (J : In p (pars h a)) by (rewrite RP; apply in_app_iff; left; exact I). split; [|exact J].
    destruct (Nat.lt_ge_cases p (length h)) as [B|B]; [exact B|]. apply (count_occ_In Nat.eq_dec) in J. rewrite <- (LA p a), get_beyond in J by exact B. cbn in J. lia. }
  constructor.
  - rewrite (r_length _ _ _ _ _ _ _ R). lia.
  - rewrite RN. apply (me_level _ _ M).
  - rewrite Pa. apply NoDup_snoc; [|exact D3]. intros I. apply Rb in I. lia.
  - rewrite Pa. intros I. apply in_app_iff in I. destruct I as [I|[E|[]]]; [apply (me_self _ _ M), Rb, I|unfold c in E; lia].
  - rewrite Pa. intros p I. apply in_app_iff in I. destruct I as [I|[<-|[]]].
    + destruct (Rb p I) as (B & J). destruct (round_value p B) as (-> & -> & _). apply (me_parents _ _ M), J.
    + unfold c. rewrite RM. cbn [n_value n_level]. split; [|apply (me_level _ _ M)]. 
      repeat apply nonneg_plus; (apply nonneg_over; [|lia]); apply (me_parents _ _ M), round_members; cbn; tauto.
Qed.
End Round.

Lemma merged_refl h a : merged_into h h a.
Proof.
  constructor; auto; [intros c Hc; lia|destruct (get h a); reflexivity|]. intros x Hx Nx. split; [destruct (get h x); reflexivity|]. auto.
Qed.
Lemma merged_step h0 h h' a x y z rest : (a < length h0)%nat -> links_agree h -> mergeable h a -> merged_into h0 h a -> round h h' a x y z rest -> merged_into h0 h' a.
Proof.
  intros Ba LA M G R. pose proof (r_length _ _ _ _ _ _ _ R) as RL. destruct (r_merger _ _ _ _ _ _ _ R) as (past & RM). pose proof (r_node _ _ _ _ _ _ _ R) as RN.
  pose proof (r_parents _ _ _ _ _ _ _ R) as RP. destruct (round_distinct h h' a x y z rest M R) as (D1 & D2 & D3).
  pose proof (round_members h h' a x y z rest LA M R) as Mem. pose proof (round_sent h h' a x y z rest LA M R) as Sent. set (c := length h) in *.
  pose proof (mg_length _ _ _ G) as GL. fold c in GL. pose proof (mg_node _ _ _ G) as GN.
  assert (Pa : pars h' a = rest ++ [c]) by (rewrite RN; reflexivity).
  assert (Rb : forall p, In p rest -> (p < c)%nat).
  { intros p I. assert (J : In p (pars h a)) by (rewrite RP; apply in_app_iff; left; exact I).
    destruct (Nat.lt_ge_cases p (length h)) as [B|B]; [exact B|]. apply (count_occ_In Nat.eq_dec) in J. rewrite <- (LA p a), get_beyond in J by exact B. cbn in J. lia. }
  assert (S3 : qcsum (map (sent h') [x; y; z]) = (sent h x + sent h y + sent h z)%Qc).
  { cbn [map qcsum fold_right]. rewrite !Sent by (apply Mem; cbn; tauto). ring. }
  assert (Ex : forall p, In p [x; y; z] -> In p (pars h0 a) \/ (length h0 <= p)%nat).
  { intros p I. apply Mem in I. destruct (mg_inputs _ _ _ G p (proj1 I)) as [J|J]; [left; exact J|right; lia]. }
  constructor.
  - lia.
  - intros c' Hc. destruct (Nat.eq_dec c' c) as [->|Nc].
    + rewrite RM. cbn [n_parents n_value n_level n_expands n_children length]. split; [reflexivity|]. split; [exact D1|]. split; [symmetry; exact S3|].
      split; [rewrite GN; reflexivity|]. split; [reflexivity|]. split; [intros p I; apply Mem, I|]. exists a. auto.
    + assert (B : (c' < c)%nat) by lia. assert (Na : c' <> a) by lia. destruct (mg_mergers _ _ _ G c' ltac:(unfold c in *; lia)) as (G1 & G2 & G3 & G4 & G5 & G6 & w & G7 & G8).
      rewrite (r_other _ _ _ _ _ _ _ R c' B Na). cbn [set_children n_parents n_value n_level n_expands n_children].
      split; [exact G1|]. split; [exact G2|]. split; [rewrite G3; f_equal; apply map_ext_in; intros p I; symmetry; apply Sent; specialize (G6 p I); lia|]. split; [exact G4|]. split; [exact G5|]. split; [exact G6|].
      destruct (in_dec Nat.eq_dec c' [x; y; z]) as [I|I]; [|exists w; split; [exact G7|destruct G8; [left; assumption|right; lia]]].
      exists c. split; [|right; lia]. apply Mem in I. destruct I as (_ & _ & _ & C1). rewrite G7 in C1 |- *. cbn [count_occ] in C1. destruct (Nat.eq_dec w a) as [->|]; [|discriminate].
      unfold without. cbn [app filter]. rewrite Nat.eqb_refl. fold c. rewrite (proj2 (Nat.eqb_neq c a)) by lia. reflexivity.
  - rewrite Pa, <- (mg_inflow _ _ _ G), RP, !map_app, !qcsum_app. cbn [map]. 
    assert (E1 : sent h' c = (sent h x + sent h y + sent h z)%Qc).
    { unfold sent at 1. rewrite RM. cbn [n_value n_children length]. change (frac_of_Z (Z.of_nat 1)) with 1%Qc. field. discriminate. }
    rewrite E1. rewrite (map_ext_in (sent h') (sent h)) by (intros p I; apply Sent, Rb, I). cbn [qcsum fold_right]. ring.
  - rewrite Pa. intros p I. apply in_app_iff in I. destruct I as [I|[<-|[]]]; [|right; lia]. destruct (mg_inputs _ _ _ G p) as [J|J]; [rewrite RP; apply in_app_iff; left; exact I|left; exact J|right; lia].
  - rewrite RN, GN. reflexivity.
  - intros w Hw Nw. destruct (mg_others _ _ _ G w Hw Nw) as (G1 & G2 & G3 & G4). assert (B : (w < c)%nat) by lia. destruct (round_kids h h' a x y z rest LA M R w B Nw) as (K1 & K2).
    split; [rewrite (r_other _ _ _ _ _ _ _ R w B Nw) at 1; rewrite G1 at 1; rewrite (r_other _ _ _ _ _ _ _ R w B Nw); reflexivity|]. split; [lia|]. split.
    + intros v Hv Nv. rewrite K2, G3 by assumption. rewrite (proj2 (Nat.eqb_neq v a)), (proj2 (Nat.eqb_neq v (length h))) by lia. destruct (in_dec _ _ _); reflexivity.
    + intros Nin. rewrite (r_other _ _ _ _ _ _ _ R w B Nw). cbn [set_children n_children]. destruct (in_dec Nat.eq_dec w [x; y; z]) as [I|I]; [|apply G4, Nin]. destruct (Ex w I); [contradiction|lia].
Qed.

Lemma merge_cost_step n t : t < n -> merge_cost n t = 1 + merge_cost (n - 2) t.
Proof.
  intros H. rewrite !merge_cost_closed. destruct (Z.leb_spec n t); [lia|]. destruct (Z.leb_spec (n - 2) t).
  - assert (n - t + 1 = 2 \/ n - t + 1 = 3) as [-> | ->] by lia; reflexivity.
  - replace (n - t + 1) with (n - 2 - t + 1 + 1 * 2) by lia. rewrite Z.div_add by lia. lia.
Qed.

Lemma merge_lemma : forall h a t, links_agree h -> mergeable h a -> 2 <= t ->
  exists h', expand_merge h a t = Ok (h', (0, 0)) /\ merged_into h h' a /\ links_agree h' /\
    Z.of_nat (length (pars h' a)) <= t /\
    Z.of_nat (length h' - length h) = merge_cost (Z.of_nat (length (pars h a))) t.
Proof.
  intros h0 a t LA0 M0 Ht. unfold expand_merge. pose proof (me_node _ _ M0) as Ba.
  assert (L : forall fuel h, (length (pars h a) <= fuel)%nat -> links_agree h -> mergeable h a -> merged_into h0 h a ->
    exists h', merge_loop fuel t h a = Ok h' /\ merged_into h0 h' a /\ links_agree h' /\ Z.of_nat (length (pars h' a)) <= t /\
      Z.of_nat (length h' - length h0) = Z.of_nat (length h - length h0) + merge_cost (Z.of_nat (length (pars h a))) t).
  { induction fuel as [|fuel IH]; intros h Hfu LA M G; cbn [merge_loop].
    - destruct (Z.leb_spec (Z.of_nat (length (pars h a))) t) as [H|H]; [|lia]. exists h. split; [reflexivity|]. split; [exact G|]. split; [exact LA|]. split; [exact H|].
      rewrite merge_cost_closed. destruct (Z.leb_spec (Z.of_nat (length (pars h a))) t); lia.
    - destruct (Z.leb_spec (Z.of_nat (length (pars h a))) t) as [H|H].
      { exists h. split; [reflexivity|]. split; [exact G|]. split; [exact LA|]. split; [exact H|].
        rewrite merge_cost_closed. destruct (Z.leb_spec (Z.of_nat (length (pars h a))) t); lia. }
      destruct (merge_round h a LA M ltac:(lia)) as (h1 & x & y & z & rest & E & R). rewrite E. cbn [bind].
      assert (PL : (length (pars h1 a) + 2 = length (pars h a))%nat).
      { rewrite (r_node _ _ _ _ _ _ _ R), (r_parents _ _ _ _ _ _ _ R). cbn [set_parents n_parents]. rewrite !app_length. cbn [length]. lia. }
      destruct (IH h1) as (h' & E' & G' & L' & T' & C'); [lia|apply (round_links h h1 a x y z rest LA M R)|apply (round_mergeable h h1 a x y z rest LA M R)|apply (merged_step h0 h h1 a x y z rest Ba LA M G R)|].
      exists h'. split; [exact E'|]. split; [exact G'|]. split; [exact L'|]. split; [exact T'|]. rewrite C', (r_length _ _ _ _ _ _ _ R), (merge_cost_step (Z.of_nat (length (pars h a)))) by exact H.
      pose proof (mg_length _ _ _ G). replace (Z.of_nat (length (pars h a)) - 2) with (Z.of_nat (length (pars h1 a))) by lia. lia. }
  destruct (L (length (pars h0 a)) h0 ltac:(lia) LA0 M0 (merged_refl h0 a)) as (h' & E & G & LA' & T & C).
  exists h'. rewrite E. cbn [bind]. split; [reflexivity|]. split; [exact G|]. split; [exact LA'|]. split; [exact T|]. rewrite C. lia.
Qed.
