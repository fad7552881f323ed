(** A search that misses an operation no rule speaks against (C61): sources of the
    same flow are tried once, and the first one may be the wrong one. *)
From Verif Require Import Base BaseLemmas Cost Utils UtilsProofs Fractions Load LoadSpec Tree TreeSpec TreeInv Search SearchSpec RealSpec SearchGen SearchWitness CompleteSpec
  ConcludeWitness RunProofs.
From Coq Require Import QArith Qcanon.
Open Scope Z_scope.

Lemma passes_by p s t o (near : nat -> Prop) sim cost :
  Forall (fun v => (occurrences v (p_targets p) < occurrences v (t_source_values t))%nat) (taken (s_heap s) t o) ->
  Forall (fun v => p_gcd p <= v) (given (s_heap s) t o) ->
  priced (s_heap s) t o cost -> t_size t + cost <= s_best_size s -> (forall is, o <> OMerge is) ->
  (exists v w, In v (t_source_values t) /\ In w (p_targets p) /\ w < v) ->
  (forall a v, near a -> In v (given (s_heap s) t o) -> ~ In v (fl_items (n_past (get (s_heap s) a)))) ->
  StronglySorted Z.le sim -> Permutation (sim ++ taken (s_heap s) t o) (t_source_values t ++ given (s_heap s) t o) ->
  ~ In sim (fl_items (t_past t)) ->
  (forall u, In u (explored p (s_log s)) -> t_source_values u = p_targets p -> ~ In sim (fl_items (t_past u))) ->
  passes p (s_heap s) (s_log s) (s_best_size s) t o near.
Proof.
  intros H1 H2 H3 H4 H5 H6 H7 S0 P0 N1 N2. rewrite Forall_forall in H1, H2. constructor; auto.
  - exists cost. auto.
  - intros is E. exfalso. apply (H5 is E).
  - intros sim' S' P'. assert (sim' = sim) as ->; [|auto]. apply sorted_z_unique; [exact S'|exact S0|].
    apply (Permutation_app_inv_r (taken (s_heap s) t o)). rewrite P', P0. reflexivity.
Qed.

Lemma tuples_in x (l : list (list Z)) : existsb (tuple_eqb x) l = true <-> In x l.
Proof. apply (existsb_eqb tuple_eqb tuple_Z_decides). Qed.

(** no rule speaks against dividing source [i], a flow of [v], in [d]; [pasts]: the
    sources to which nothing may come back, [sim]: the flows after it *)
Definition divides (p : problem) (s : state) (t : tree Z) (i : nat) (d v : Z) (pasts : list nat) (sim : list Z) (cost : Z) : bool :=
  let h := s_heap s in let w := v / d in
  negb (tuple_eqb (t_source_values t) (p_targets p)) && (i <? length (t_sources t))%nat && (2 <=? d) && (v =? d * w)
  && (value h (nth i (t_sources t) O) =? v) && match divide_cost v d with Ok c => c =? cost | Err _ => false end && (t_size t + cost <=? s_best_size s)
  && (occurrences v (p_targets p) <? occurrences v (t_source_values t))%nat && (p_gcd p <=? w)
  && existsb (fun x => existsb (fun y => y <? x) (p_targets p)) (t_source_values t)
  && forallb (fun a => negb (zmem w (fl_items (n_past (get h a))))) pasts
  && tuple_eqb sim (sorted_by Z.leb sim) && tuple_eqb (sorted_by Z.leb (sim ++ [v])) (sorted_by Z.leb (t_source_values t ++ repeat w (Z.to_nat d)))
  && negb (existsb (tuple_eqb sim) (fl_items (t_past t)))
  && forallb (fun u => negb (tuple_eqb (t_source_values u) (p_targets p) && existsb (tuple_eqb sim) (fl_items (t_past u)))) (explored p (s_log s)).

Lemma divides_ok p s t i d v pasts sim cost (near : nat -> Prop) : divides p s t i d v pasts sim cost = true -> (forall a, near a -> In a pasts) ->
  t_source_values t <> p_targets p /\ taken (s_heap s) t (ODivide i d) = [v] /\ offered (s_heap s) t (ODivide i d) /\
  passes p (s_heap s) (s_log s) (s_best_size s) t (ODivide i d) near.
Proof.
  unfold divides. rewrite !andb_true_iff. intros ((((((((((((((NT & LI) & D2) & DV) & VA) & CO) & SZ) & OC) & GC) & TP) & PP) & SS) & PS) & N1) & N2) NP.
  apply negb_true_iff in NT, N1. apply Nat.ltb_lt in LI, OC. apply Z.leb_le in D2, SZ, GC. apply Z.eqb_eq in DV, VA. apply tuple_Z_decides in SS, PS.
  assert (TK : taken (s_heap s) t (ODivide i d) = [v]) by (unfold taken; cbn [op_nodes map]; rewrite VA; reflexivity).
  assert (ZS : zsum [v] = v) by (cbn; lia).
  assert (GV : given (s_heap s) t (ODivide i d) = repeat (v / d) (Z.to_nat d)) by (unfold given; rewrite TK, ZS; reflexivity).
  split; [intros E; apply tuple_Z_decides in E; congruence|]. split; [exact TK|]. split.
  { split; [|exact I]. unfold sensible. rewrite TK, ZS. split; [exact LI|]. split; [exact D2|]. exists (v / d). lia. }
  apply (passes_by p s t _ _ sim cost); rewrite ?TK, ?GV.
  - constructor; [exact OC|constructor].
  - apply Forall_forall. intros x Hx. apply repeat_spec in Hx. subst x. exact GC.
  - unfold priced. rewrite TK, ZS. destruct (divide_cost v d) as [c|]; [|discriminate]. apply Z.eqb_eq in CO. subst. reflexivity.
  - exact SZ.
  - discriminate.
  - apply existsb_exists in TP. destruct TP as (x & Hx & TP). apply existsb_exists in TP. destruct TP as (y & Hy & TP). apply Z.ltb_lt in TP.
    exists x, y. auto.
  - intros a x Ha Hx IP. apply repeat_spec in Hx. subst x. rewrite forallb_forall in PP. specialize (PP a (NP a Ha)).
    apply zmem_in in IP. rewrite IP in PP. discriminate.
  - rewrite SS. pose proof (sorted_by_sorted Z.leb Zleb_total Zleb_trans sim) as X. clear - X. unfold is_sorted in X.
    induction X as [|x l X IH F]; constructor; [exact IH|]. eapply Forall_impl; [|exact F]. intros y Hy. apply Z.leb_le, Hy.
  - rewrite <- (sorted_by_perm Z.leb (sim ++ [v])). rewrite PS. apply sorted_by_perm.
  - intros IP. apply tuples_in in IP. congruence.
  - intros u Hu EU IP. rewrite forallb_forall in N2. specialize (N2 u Hu). apply tuples_in in IP. rewrite IP, EU in N2.
    assert (E : tuple_eqb (p_targets p) (p_targets p) = true) by (apply tuple_Z_decides; reflexivity). rewrite E in N2. discriminate.
Qed.

(** "2 2 8 to 3 9": the tree with the flows 4, 4, 4 of which the first is the sum
    of 2 and 2 and the others are the halves of 8.  Halving one of the latter
    breaks no rule, but halving the first would give 2 back, and the others are
    not looked at. *)
Definition p_228 : problem := problem_of [50; 32; 50; 32; 56; 32; 116; 111; 32; 51; 32; 57].
Lemma p_228_loaded : loaded p_228.
Proof. apply loads_loaded. vm_compute. reflexivity. Qed.

Definition same_nats (a b : list nat) : bool := tuple_eqb (map Z.of_nat a) (map Z.of_nat b).
Definition missed (p : problem) (s : state) (t : tree Z) : bool :=
  divides p s t 1 2 4 [nth 1 (t_sources t) O] [2; 2; 4; 4] 1
  && forallb (fun e => negb (same_nats (t_sources t) (t_sources (ev_from e))) || match ev_op e with ODivide _ _ => false | _ => true end) (s_log s).
Definition misses (p : problem) (r : res unit) (s : state) : bool :=
  match r with Ok _ => true | Err _ => false end && existsb (missed p s) (explored p (s_log s)).

Lemma misses_refutes p r s : misses p r s = true ->
  exists t o, r = Ok tt /\ In t (explored p (s_log s)) /\ t_source_values t <> p_targets p /\ offered (s_heap s) t o /\
    passes p (s_heap s) (s_log s) (s_best_size s) t o (used t o) /\
    ~ exists e, In e (s_log s) /\ ev_from e = t /\ same_op (s_heap s) t o (ev_op e).
Proof.
  unfold misses. rewrite !andb_true_iff. intros (ER & EX).
  apply existsb_exists in EX. destruct EX as (t & It & EX). unfold missed in EX. apply andb_true_iff in EX. destruct EX as [DV EV].
  destruct (divides_ok p s t 1 2 4 [nth 1 (t_sources t) O] _ _ (used t (ODivide 1 2)) DV) as (NT & TK & OF & PA); [intros a Ha; exact Ha|].
  exists t, (ODivide 1 2). split; [destruct r as [[]|e]; [reflexivity|discriminate]|]. split; [exact It|]. split; [exact NT|].
  split; [exact OF|]. split; [exact PA|].
  intros (e & Ie & Ef & [_ SO]). rewrite forallb_forall in EV. specialize (EV e Ie). rewrite Ef in EV. unfold same_nats in EV.
  assert (E : tuple_eqb (map Z.of_nat (t_sources t)) (map Z.of_nat (t_sources t)) = true) by (apply tuple_Z_decides; reflexivity). rewrite E in EV.
  destruct (ev_op e); try contradiction. discriminate.
Qed.
Lemma nothing_missed_refuted_lemma : ~ (forall p R fuel t o, loaded p -> realistic p R -> o_stop R = None -> fst (solve R fuel p) = Ok tt ->
  let s := snd (solve R fuel p) in
  In t (explored p (s_log s)) -> t_source_values t <> p_targets p ->
  offered (s_heap s) t o -> passes p (s_heap s) (s_log s) (s_best_size s) t o (used t o) ->
  exists e, In e (s_log s) /\ ev_from e = t /\ same_op (s_heap s) t o (ev_op e)).
Proof.
  intros H. destruct (misses_refutes p_228 (fst (solve (real p_228) 400 p_228)) (snd (solve (real p_228) 400 p_228))) as (t & o & H1 & H2 & H3 & H4 & H5 & H6); [vm_compute; reflexivity|].
  apply H6. apply (H p_228 (real p_228) 400%nat t o p_228_loaded (real_ok _) eq_refl H1 H2 H3 H4 H5).
Qed.

(** "6 to 2 4": halving the 6 is tried although it does not lead to the solution *)
Definition p_6 : problem := problem_of [54; 32; 116; 111; 32; 50; 32; 52].
Lemma p_6_loaded : loaded p_6.
Proof. apply loads_loaded. vm_compute. reflexivity. Qed.
Lemma p_6_example : let s := snd (solve R_any 50 p_6) in let t := snd (initial_tree p_6) in let o := ODivide 0 2 in
  fst (solve R_any 50 p_6) = Ok tt /\ In t (explored p_6 (s_log s)) /\ t_source_values t <> p_targets p_6 /\ offered (s_heap s) t o /\
  passes p_6 (s_heap s) (s_log s) (s_best_size s) t o (as_large (s_heap s) t o).
Proof.
  cbv zeta. split; [vm_compute; reflexivity|]. split; [apply in_or_app; right; left; reflexivity|].
  destruct (divides_ok p_6 (snd (solve R_any 50 p_6)) (snd (initial_tree p_6)) 0 2 6 (t_sources (snd (initial_tree p_6))) [3; 3] 1
    (as_large (snd (solve R_any 50 p_6)).(s_heap) (snd (initial_tree p_6)) (ODivide 0 2))) as (NT & TK & OF & PA).
  - vm_compute. reflexivity.
  - intros a [Ha _]. exact Ha.
  - auto.
Qed.
