(** With the comparisons of Tree.__eq__, the recorded solutions have different
    shapes, one for each shape of the solutions built (C64). *)
From Verif Require Import Base BaseLemmas Cost CostSpec CostProofs Utils UtilsSpec UtilsProofs Fractions Load LoadSpec LoadProofs Tree TreeSpec
  Search SearchSpec HeapLemmas CopyProofs TreeInv TreeGrow TreeOps SearchGen SearchInit SearchInv SearchProofs TreeEq TreeEqProofs RunRule RealSpec.
From Coq Require Import QArith Qcanon.
Open Scope Z_scope.

(** ** shapes *)
Lemma isomorphic_refl h t : isomorphic h t t.
Proof. exists (fun a => a), (fun a => a). split; [auto|]. split; [auto|]. intros a b _ _. reflexivity. Qed.
Lemma isomorphic_sym h t u : isomorphic h t u -> isomorphic h u t.
Proof.
  intros (f & g & F & G & E). exists g, f. split; [exact G|]. split; [exact F|]. intros a b Ha Hb.
  destruct (G a Ha) as [Ga Ea]. destruct (G b Hb) as [Gb Eb]. rewrite (E _ _ Ga Gb), Ea, Eb. reflexivity.
Qed.
Lemma adjacent_extends h h' t N a b : extends h h' -> wf h t N -> (adjacent h' t a b <-> adjacent h t a b).
Proof.
  intros E W. unfold adjacent. rewrite !(in_tree_extends h h' t N _ E W).
  assert (C : forall x, in_tree h t x -> children h' x = children h x).
  { intros x Hx. unfold children. rewrite (extends_get h h' x E); [reflexivity|]. apply (wf_bound _ _ _ W), (wf_in_tree _ _ _ _ W), Hx. }
  split; intros (A & B & D); (split; [exact A|]); (split; [exact B|]); rewrite !C in *; auto.
Qed.
Lemma isomorphic_extends h h' t u N M : extends h h' -> wf h t N -> wf h u M -> (isomorphic h' t u <-> isomorphic h t u).
Proof.
  intros E W W'.
  assert (H1 : forall a, has_edge h' t a <-> has_edge h t a) by (intros a; split; intros (b & H); exists b; apply (adjacent_extends h h' t N a b E W); exact H).
  assert (H2 : forall a, has_edge h' u a <-> has_edge h u a) by (intros a; split; intros (b & H); exists b; apply (adjacent_extends h h' u M a b E W'); exact H).
  split; intros (f & g & F & G & A); exists f, g.
  - split; [intros a Ha; apply H1 in Ha; rewrite <- H2; apply F, Ha|]. split; [intros a Ha; apply H2 in Ha; rewrite <- H1; apply G, Ha|].
    intros a b Ha Hb. apply H1 in Ha, Hb. rewrite <- (adjacent_extends h h' t N _ _ E W), <- (adjacent_extends h h' u M _ _ E W'). apply A; assumption.
  - split; [intros a Ha; rewrite H1 in Ha; rewrite H2; apply F, Ha|]. split; [intros a Ha; rewrite H2 in Ha; rewrite H1; apply G, Ha|].
    intros a b Ha Hb. rewrite H1 in Ha, Hb. rewrite (adjacent_extends h h' t N _ _ E W), (adjacent_extends h h' u M _ _ E W'). apply A; assumption.
Qed.

Lemma any_same_eq R u sols : compares R -> forall s, exists k,
  any_same R u sols s = (Ok (existsb (fun t => tree_eq (s_heap s) t u) sols), with_counters (s_reads s) (s_scores s) (s_picks s) k s).
Proof.
  intros C. induction sols as [|t sols IH]; intros s.
  - exists (s_sames s). unfold any_same, ret, with_counters. destruct s. reflexivity.
  - cbn [any_same existsb]. unfold mbind, gets, modify. rewrite C. destruct (tree_eq (s_heap s) t u); cbn [orb].
    + exists (S (s_sames s)). reflexivity.
    + destruct (IH (with_counters (s_reads s) (s_scores s) (s_picks s) (S (s_sames s)) s)) as (k & E). exists k. rewrite E. reflexivity.
Qed.

(** ** one tree put in the queue *)
Section Run.
Variable p : problem.
Hypothesis L : loaded p.
Variable R : oracle.
Hypothesis C : compares R.

Lemma purge_same s : let s' := snd (purge_queue R s) in
  s_log s' = s_log s /\ s_heap s' = s_heap s /\ s_solutions s' = s_solutions s /\ s_best_size s' = s_best_size s.
Proof.
  cbv zeta. unfold purge_queue, mbind, gets. destruct (purge_loop_spec R (length (s_queue s)) s) as (j & r & E & _); [lia|]. rewrite E. auto.
Qed.
Lemma enqueue_cases t s : let s' := snd (enqueue R p t s) in
  s_heap s' = s_heap s /\ s_log s' = s_log s /\
  ((s_solutions s' = s_solutions s /\ s_best_size s' = s_best_size s /\
    (o_stop R = None -> s_forced_stop s = false ->
     is_solution p (s_heap s) (t_sources t) = false \/
     (s_solutions_count s <> 0 /\ s_best_size s <= t_size t /\
      (t_size t = s_best_size s -> exists u, In u (s_solutions s) /\ tree_eq (s_heap s) u t = true)))) \/
   (s_solutions s' = [t] /\ s_best_size s' = t_size t /\ is_solution p (s_heap s) (t_sources t) = true /\
    (s_solutions_count s = 0 \/ t_size t < s_best_size s)) \/
   (s_solutions s' = s_solutions s ++ [t] /\ s_best_size s' = s_best_size s /\ is_solution p (s_heap s) (t_sources t) = true /\
    t_size t = s_best_size s /\ s_solutions_count s <> 0 /\ forall u, In u (s_solutions s) -> tree_eq (s_heap s) u t = false)).
Proof.
  cbv zeta. unfold enqueue. remember (snd (mbind _ _ s)) as s' eqn:E.
  unfold mbind at 1, read_solving in E. set (s1 := with_counters _ _ _ _ s) in E. set (b := negb (s_forced_stop s) && _) in E.
  destruct b eqn:EB; cbn [negb] in E.
  2: { cbn [ret snd] in E. subst s'. split; [reflexivity|]. split; [reflexivity|]. left. split; [reflexivity|]. split; [reflexivity|].
    intros NS FS. exfalso. unfold b in EB. rewrite NS, FS in EB. discriminate. }
  clear EB b. unfold mbind at 1, gets at 1 in E. change (s_heap s1) with (s_heap s) in E. destruct (is_solution p (s_heap s) (t_sources t)) eqn:ES.
  - unfold solution_found, mbind, gets, modify, ret in E.
    change (s_solutions_count s1) with (s_solutions_count s) in E. change (s_best_size s1) with (s_best_size s) in E. change (s_solutions s1) with (s_solutions s) in E.
    destruct ((s_solutions_count s =? 0) || (t_size t <? s_best_size s)) eqn:EC.
    + destruct (purge_same (with_solutions [t] 1 (t_size t) s1)) as (E1 & E2 & E3 & E4). rewrite E, E1, E2, E3, E4.
      split; [reflexivity|]. split; [reflexivity|]. right. left. cbn. repeat (split; [reflexivity|]). apply orb_true_iff in EC. lia.
    + apply orb_false_iff in EC. destruct EC as [EC1 EC2]. destruct (t_size t =? s_best_size s) eqn:EQ.
      * destruct (any_same_eq R t (s_solutions s) C s1) as (k & EA). rewrite EA in E. clear EA. change (s_heap s1) with (s_heap s) in E.
        destruct (existsb _ (s_solutions s)) eqn:EX; cbn in E; subst s'; (split; [reflexivity|]); (split; [reflexivity|]).
        -- left. split; [reflexivity|]. split; [reflexivity|]. intros _ _. right.
           split; [lia|]. split; [lia|]. intros _. apply existsb_exists in EX. exact EX.
        -- right. right. repeat (split; [reflexivity|]). split; [lia|]. split; [lia|].
           intros u Hu. apply not_true_is_false. intros E. assert (X : existsb (fun t0 => tree_eq (s_heap s) t0 t) (s_solutions s) = true) by (apply existsb_exists; eauto). congruence.
      * cbn in E. subst s'. split; [reflexivity|]. split; [reflexivity|]. left. split; [reflexivity|]. split; [reflexivity|]. intros _ _. right.
        split; [lia|]. split; [lia|]. lia.
  - unfold mbind, gets, modify in E. cbn in E. subst s'. auto 10.
Qed.

(** ** operations *)
Lemma try_body_cases t sim o cost s : let s' := snd (try_body R p t sim o cost s) in
  (s_heap s' = s_heap s /\ s_log s' = s_log s /\ s_solutions s' = s_solutions s /\ s_best_size s' = s_best_size s) \/
  exists h' new, apply_op (s_heap s) t o cost = Ok (h', new) /\
    let s2 := with_log (MkEvent t o sim cost new :: s_log s) (with_heap h' (with_counters (S (s_reads s)) (s_scores s) (s_picks s) (s_sames s) s)) in
    s' = snd (enqueue R p new s2).
Proof.
  cbv zeta. unfold try_body, mbind, read_solving. set (s1 := with_counters _ _ _ _ s). set (b := negb (s_forced_stop s) && _).
  destruct b eqn:EB; cbn [negb].
  2: { left. cbn. auto. }
  unfold gets, lift, modify. change (s_heap s1) with (s_heap s). destruct (apply_op (s_heap s) t o cost) as [[h' new]|e]; [|left; cbn; auto].
  right. exists h', new. split; [reflexivity|]. cbn [with_heap s_log with_counters s1].
  match goal with |- context [enqueue R p new ?x] => destruct (enqueue R p new x) as [[u|e] s3] end; reflexivity.
Qed.

(** ** shapes kept apart, and none lost *)
Let F := loaded_ok p L.
Let K := (3 * total p + 2 ^ total p * total p)%nat.
Definition shapes (h : heap Z) (sols : list (tree Z)) (best : Z) (trees : list (tree Z)) : Prop :=
  ForallOrdPairs (fun t u => ~ isomorphic h t u) sols /\
  (o_stop R = None -> forall t, In t trees -> t_source_values t = p_targets p ->
     sols <> [] /\ best <= t_size t /\ (t_size t = best -> exists u, In u sols /\ isomorphic h u t)).
Definition shapes_of (s : state) : Prop := shapes (s_heap s) (s_solutions s) (s_best_size s) (explored p (s_log s)).

Lemma fop_snoc {A} (P : A -> A -> Prop) l x : ForallOrdPairs P l -> Forall (fun y => P y x) l -> ForallOrdPairs P (l ++ [x]).
Proof.
  induction 1 as [|y l H1 H2 IH]; intros F1; cbn; [constructor; constructor|]. inversion F1; subst.
  constructor; [apply Forall_app; split; [assumption|constructor; [assumption|constructor]]|apply IH; assumption].
Qed.
Lemma enqueue_shapes t s trees : Forall (good_tree p (s_heap s)) (t :: trees) -> s_forced_stop s = false ->
  s_solutions_count s = Z.of_nat (length (s_solutions s)) -> incl (s_solutions s) trees ->
  explored p (s_log s) = t :: trees -> shapes (s_heap s) (s_solutions s) (s_best_size s) trees -> shapes_of (snd (enqueue R p t s)).
Proof.
  intros G FS CN IN EX [SA SR]. destruct (enqueue_cases t s) as (EH & EL & CASES). unfold shapes_of. rewrite EH, EL, EX.
  inversion G as [|? ? [N Gt] GT]; subst. pose proof (gd_wf _ _ _ _ Gt) as W. rewrite Forall_forall in GT.
  assert (TE : forall u, In u (s_solutions s) -> (tree_eq (s_heap s) u t = true <-> isomorphic (s_heap s) u t)).
  { intros u Hu. destruct (GT u (IN u Hu)) as [M Gu]. apply (tree_eq_isomorphic _ _ _ M N); [apply (gd_wf _ _ _ _ Gu)|exact W]. }
  pose proof (is_solution_iff p _ _ _ W) as SOL.
  assert (NZ : s_solutions_count s <> 0 -> s_solutions s <> []) by (intros X E; rewrite E in CN; cbn in CN; lia).
  destruct CASES as [(E1 & E2 & H)|[(E1 & E2 & ES & H)|(E1 & E2 & ES & SZ & CZ & H)]]; rewrite E1, E2; split.
  - exact SA.
  - intros NS u [<-|Hu] TU; [|apply (SR NS u Hu TU)]. destruct (H NS FS) as [X|(CZ & BS & X)].
    + apply SOL in TU. congruence.
    + split; [apply NZ, CZ|]. split; [exact BS|]. intros EQ. destruct (X EQ) as (u & Hu & TEu). exists u. split; [exact Hu|]. apply (TE u Hu), TEu.
  - constructor; constructor.
  - intros NS u [<-|Hu] TU.
    + split; [discriminate|]. split; [lia|]. intros _. exists t. split; [left; reflexivity|apply isomorphic_refl].
    + destruct (SR NS u Hu TU) as (NE & BS & _). split; [discriminate|].
      assert (s_solutions_count s <> 0). { intros X. rewrite X in CN. destruct (s_solutions s); [congruence|cbn in CN; lia]. }
      split; [lia|]. intros. lia.
  - apply fop_snoc; [exact SA|]. apply Forall_forall. intros u Hu I. apply (TE u Hu) in I. rewrite (H u Hu) in I. discriminate.
  - intros NS u [<-|Hu] TU.
    + split; [intros X; apply app_eq_nil in X; destruct X; discriminate|]. split; [lia|]. intros _. exists t. split; [apply in_or_app; right; left; reflexivity|apply isomorphic_refl].
    + destruct (SR NS u Hu TU) as (NE & BS & X). split; [intros Y; apply app_eq_nil in Y; destruct Y; discriminate|]. split; [exact BS|].
      intros EQ. destruct (X EQ) as (v & Hv & Iv). exists v. split; [apply in_or_app; left; exact Hv|exact Iv].
Qed.

Lemma shapes_extends h h' sols best trees : extends h h' -> Forall (good_tree p h) trees -> incl sols trees ->
  shapes h sols best trees -> shapes h' sols best trees.
Proof.
  intros E G IN [SA SR]. rewrite Forall_forall in G.
  assert (EQ : forall t u, In t trees -> In u trees -> isomorphic h' t u <-> isomorphic h t u).
  { intros t u Ht Hu. destruct (G t Ht) as [N Gt], (G u Hu) as [M Gu]. apply (isomorphic_extends h h' t u N M E); [apply (gd_wf _ _ _ _ Gt)|apply (gd_wf _ _ _ _ Gu)]. }
  split.
  - revert IN SA. clear SR. induction sols as [|t sols IH]; intros IN SA; [constructor|]. inversion SA; subst. constructor.
    + rewrite Forall_forall in *. intros u Hu I. apply (H1 u Hu). apply EQ in I; [exact I|apply IN; left; reflexivity|apply IN; right; exact Hu].
    + apply IH; [intros u Hu; apply IN; right; exact Hu|assumption].
  - intros NS t Ht TT. destruct (SR NS t Ht TT) as (NE & BS & X). split; [exact NE|]. split; [exact BS|]. intros SZ. destruct (X SZ) as (u & Hu & I).
    exists u. split; [exact Hu|]. apply EQ; [apply IN, Hu|exact Ht|exact I].
Qed.

Lemma shapes_run fuel : shapes_of (snd (solve R fuel p)).
Proof.
  apply (run_rule p L R shapes_of).
  - intros a b c d s H. exact H.
  - intros q s _ H. exact H.
  - pose proof (initial_inv p F) as I. apply (enqueue_shapes _ _ []).
    + apply (iv_good _ _ _ _ _ _ _ _ I).
    + reflexivity.
    + reflexivity.
    + intros u [].
    + reflexivity.
    + split; [constructor|intros _ u []].
  - intros t N sim o cost s I It NT G CD SZ H.
    pose proof (try_body_ok p F K R t N sim o cost s I It G CD SZ) as OK. unfold wp in OK.
    destruct (try_body_cases t sim o cost s) as [(E1 & E2 & E3 & E4)|(h' & new & EA & ES)].
    { unfold shapes_of. rewrite E1, E2, E3, E4. exact H. }
    destruct (try_body R p t sim o cost s) as [[b|e] s'] eqn:EB; [|contradiction]. destruct OK as (I' & LT & _). cbn [snd] in ES |- *.
    set (s2 := with_log _ _) in ES. destruct (enqueue_cases new s2) as (EH & EL & _). rewrite <- ES in EH, EL.
    pose proof (iv_good _ _ _ _ _ _ _ _ I') as G'. rewrite EH, EL in G'. rewrite ES.
    assert (IN : incl (s_solutions s) (explored p (s_log s))).
    { pose proof (iv_sols _ _ _ _ _ _ _ _ I) as X. rewrite Forall_forall in X. intros u Hu. apply (X u Hu). }
    apply (enqueue_shapes new s2 (explored p (s_log s))).
    + exact G'.
    + apply (iv_forced _ _ _ _ _ _ _ _ I).
    + apply (iv_count _ _ _ _ _ _ _ _ I).
    + exact IN.
    + reflexivity.
    + apply (shapes_extends (s_heap s) h'); [|apply (iv_good _ _ _ _ _ _ _ _ I)|exact IN|exact H].
      change h' with (s_heap s2). rewrite <- EH. apply (la_heap _ _ LT).
Qed.
End Run.

Lemma shapes_apart_lemma p R fuel : loaded p -> compares R ->
  let s := snd (solve R fuel p) in ForallOrdPairs (fun t u => ~ isomorphic (s_heap s) t u) (s_solutions s).
Proof. intros L C. apply (shapes_run p L R C fuel). Qed.
Lemma shapes_kept_lemma p R fuel t : loaded p -> compares R -> o_stop R = None ->
  let s := snd (solve R fuel p) in In t (explored p (s_log s)) -> t_source_values t = p_targets p ->
  s_best_size s <= t_size t /\ (t_size t = s_best_size s -> exists u, In u (s_solutions s) /\ isomorphic (s_heap s) u t).
Proof. intros L C NS s H E. destruct (shapes_run p L R C fuel) as [_ X]. destruct (X NS t H E) as (_ & A & B). auto. Qed.
Lemma equality_lemma p R fuel t u : loaded p ->
  let s := snd (solve R fuel p) in In t (explored p (s_log s)) -> In u (explored p (s_log s)) ->
  (tree_eq (s_heap s) t u = true <-> isomorphic (s_heap s) t u).
Proof.
  intros L s Ht Hu. pose proof (iv_good _ _ _ _ _ _ _ _ (proj1 (run_inv p R fuel L))) as G. fold s in G. rewrite Forall_forall in G.
  destruct (G t Ht) as [N Gt], (G u Hu) as [M Gu]. apply (tree_eq_isomorphic _ _ _ N M); [apply (gd_wf _ _ _ _ Gt)|apply (gd_wf _ _ _ _ Gu)].
Qed.
