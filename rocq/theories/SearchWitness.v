(** Concrete problems and runs used as examples and counterexamples. *)
From Verif Require Import Base BaseLemmas Cost Utils Fractions Load LoadProofs Tree TreeSpec HeapLemmas Search SearchSpec Real RealSpec RealProofs.
From Coq Require Import QArith Qcanon.
Open Scope Z_scope.

(** never stopped, constant score, always the last of the queue *)
Definition R0 : oracle :=
  {| o_stop := None; o_score := fun _ _ => 0%Q; o_pick := fun _ => None; o_same := fun _ _ _ _ => false |}.

(** the program's scores and comparisons, always the last of the queue *)
Definition real (p : problem) : oracle := real_oracle p None (fun _ => None).
Lemma real_ok p : realistic p (real p).
Proof. apply real_realistic. Qed.

Definition no_problem : problem := {| p_problem_str := []; p_unit_flow_ratio := 1; p_sources := []; p_target_integers := [];
  p_leaves := []; p_size_offset := 0; p_targets := []; p_min_target := 0; p_target_counts := []; p_initial_best_size := 0; p_gcd := 0 |}.
Definition problem_of (s : str) : problem := match load s with Ok (Some p) => p | _ => no_problem end.

(** what makes the problem of an input [loaded], as a computation *)
Definition qc_pos (f : Qc) : bool := 0 <? Qnum (this f).
Definition loads (s : str) : bool :=
  match parse_user_input s with
  | Ok (Some (ss, ts)) => forallb qc_pos ss && forallb qc_pos ts &&
                          match load_values ss ts with Ok (Some _) => true | _ => false end
  | _ => false
  end.
Lemma loads_loaded s : loads s = true -> loaded (problem_of s).
Proof.
  unfold loads, problem_of, load. destruct (parse_user_input s) as [[[ss ts]|]|]; try discriminate. intros H.
  apply andb_true_iff in H. destruct H as [H1 H3]. apply andb_true_iff in H1. destruct H1 as [H1 H2].
  assert (P : forall l, forallb qc_pos l = true -> Forall (fun f => (0 < f)%Qc) l).
  { intros l H. rewrite forallb_forall in H. apply Forall_forall. intros f Hf. specialize (H f Hf). unfold qc_pos in H.
    apply Z.ltb_lt in H. unfold Qclt, Qlt. cbn. rewrite Z.mul_1_r. exact H. }
  exists ss, ts. split; [apply P, H1|]. split; [apply P, H2|]. destruct (load_values ss ts) as [[p|]|]; try discriminate. reflexivity.
Qed.

(** "9 to 4 5" *)
Definition p_9 : problem := problem_of [57; 32; 116; 111; 32; 52; 32; 53].
Lemma p_9_loaded : loaded p_9.
Proof. apply loads_loaded. vm_compute. reflexivity. Qed.
(** "6 6 to 3 9" *)
Definition p_66 : problem := problem_of [54; 32; 54; 32; 116; 111; 32; 51; 32; 57].
Lemma p_66_loaded : loaded p_66.
Proof. apply loads_loaded. vm_compute. reflexivity. Qed.
(** "4 6 to 2 8" *)
Definition p_46 : problem := problem_of [52; 32; 54; 32; 116; 111; 32; 50; 32; 56].
Lemma p_46_loaded : loaded p_46.
Proof. apply loads_loaded. vm_compute. reflexivity. Qed.


(** "400 400 to 800" *)
Definition p_800 : problem := problem_of [52; 48; 48; 32; 52; 48; 48; 32; 116; 111; 32; 56; 48; 48].
Lemma p_800_loaded : loaded p_800.
Proof. apply loads_loaded. vm_compute. reflexivity. Qed.
(** "1000 1000 to 4x 500" *)
Definition p_1000 : problem := problem_of [49; 48; 48; 48; 32; 49; 48; 48; 48; 32; 116; 111; 32; 52; 120; 32; 53; 48; 48].
Lemma p_1000_loaded : loaded p_1000.
Proof. apply loads_loaded. vm_compute. reflexivity. Qed.
(** "400.5 400.5 to 801" *)
Definition p_801 : problem := problem_of [52; 48; 48; 46; 53; 32; 52; 48; 48; 46; 53; 32; 116; 111; 32; 56; 48; 49].
Lemma p_801_loaded : loaded p_801.
Proof. apply loads_loaded. vm_compute. reflexivity. Qed.
(** "60.5 to 30 30.5" *)
Definition p_121 : problem := problem_of [54; 48; 46; 53; 32; 116; 111; 32; 51; 48; 32; 51; 48; 46; 53].
Lemma p_121_loaded : loaded p_121.
Proof. apply loads_loaded. vm_compute. reflexivity. Qed.
(** "100 to 20 80" *)
Definition p_100 : problem := problem_of [49; 48; 48; 32; 116; 111; 32; 50; 48; 32; 56; 48].
Lemma p_100_loaded : loaded p_100.
Proof. apply loads_loaded. vm_compute. reflexivity. Qed.
(** "80 to 20 60" *)
Definition p_80 : problem := problem_of [56; 48; 32; 116; 111; 32; 50; 48; 32; 54; 48].
Lemma p_80_loaded : loaded p_80.
Proof. apply loads_loaded. vm_compute. reflexivity. Qed.

(** a list closed under child links holds the whole tree *)
Definition nat_mem (a : nat) (l : list nat) : bool := existsb (Nat.eqb a) l.
Lemma nat_mem_in a l : nat_mem a l = true <-> In a l.
Proof.
  unfold nat_mem. rewrite existsb_exists. split.
  - intros (x & I & E). apply Nat.eqb_eq in E. subst. exact I.
  - intros I. exists a. split; [exact I|apply Nat.eqb_refl].
Qed.
Definition closed (h : heap Z) (t : tree Z) (l : list nat) : bool :=
  forallb (fun a => nat_mem a l) (t_roots t) && forallb (fun a => forallb (fun c => nat_mem c l) (children h a)) l.
Lemma closed_in_tree h t l a : closed h t l = true -> in_tree h t a -> In a l.
Proof.
  intros H (r & Hr & B). apply andb_true_iff in H. destruct H as [H1 H2]. rewrite forallb_forall in H1, H2.
  assert (Ir : In r l) by (apply nat_mem_in, H1, Hr). clear Hr. induction B as [r|r b c B IH Hc]; [exact Ir|].
  specialize (H2 b (IH Ir)). rewrite forallb_forall in H2. apply nat_mem_in, H2, Hc.
Qed.
Lemma in_tree_root h t r : In r (t_roots t) -> in_tree h t r.
Proof. intros I. exists r. split; [exact I|constructor]. Qed.
Lemma in_tree_child h t a c : in_tree h t a -> In c (children h a) -> in_tree h t c.
Proof. intros (r & I & B) Hc. exists r. split; [exact I|econstructor; eassumption]. Qed.

(** ** C24, C27 *)
Lemma history_witness : let log := s_log (snd (solve R0 10 p_9)) in
  exists e e', In e log /\ In e' log /\ ev_from e' = ev_to e /\ ev_from e = snd (initial_tree p_9) /\
    history p_9 log (ev_to e') [[9]; t_source_values (ev_to e); t_source_values (ev_to e')] [ev_cost e; ev_cost e'].
Proof.
  intros log.
  set (e := nth 27 log (MkEvent (snd (initial_tree p_9)) (OMerge []) [] 0 (snd (initial_tree p_9)))).
  set (e' := nth 25 log (MkEvent (snd (initial_tree p_9)) (OMerge []) [] 0 (snd (initial_tree p_9)))).
  assert (L : length log = 32%nat) by (vm_compute; reflexivity).
  assert (I : In e log) by (apply nth_In; rewrite L; lia). assert (I' : In e' log) by (apply nth_In; rewrite L; lia).
  assert (F : ev_from e' = ev_to e) by (vm_compute; reflexivity).
  assert (F0 : ev_from e = snd (initial_tree p_9)) by (vm_compute; reflexivity).
  exists e, e'. split; [exact I|]. split; [exact I'|]. split; [exact F|]. split; [exact F0|].
  change ([[9]; t_source_values (ev_to e); t_source_values (ev_to e')]) with (([[9]] ++ [t_source_values (ev_to e)]) ++ [t_source_values (ev_to e')]).
  change [ev_cost e; ev_cost e'] with (([] ++ [ev_cost e]) ++ [ev_cost e']).
  apply hist_step; [exact I'|]. rewrite F. apply hist_step; [exact I|]. rewrite F0.
  assert (E : t_source_values (snd (initial_tree p_9)) = [9]) by (vm_compute; reflexivity). rewrite <- E. apply hist_start.
Qed.

(** ** C30 *)
Lemma ancestor_witness : exists p R fuel e a b v, loaded p /\ realistic p R /\
  let s := snd (solve R fuel p) in
  let h := s_heap s in
  In e (s_log s) /\ In a (op_nodes (ev_from e) (ev_op e)) /\ below h b a /\ b <> a /\
  In v (given h (ev_from e) (ev_op e)) /\ v = value h b.
Proof.
  exists p_9, (real p_9), 18%nat.
  set (e := nth 4 (s_log (snd (solve (real p_9) 18 p_9))) (MkEvent (snd (initial_tree p_9)) (OMerge []) [] 0 (snd (initial_tree p_9)))).
  exists e, 96%nat, 95%nat, 3. split; [exact p_9_loaded|]. split; [apply real_ok|]. cbv zeta. split; [apply nth_In; vm_compute; repeat constructor|].
  split; [vm_compute; auto|]. split; [|split; [discriminate|split; [vm_compute; auto|vm_compute; reflexivity]]].
  apply (below_step _ _ 95%nat); [constructor|]. vm_compute. auto.
Qed.

(** ** C31 *)
Lemma copy_witness : let s := snd (solve R0 10 p_9) in
  match nth_error (s_log s) 3 with
  | Some e => match tree_deepcopy (s_heap s) (ev_to e) with
              | Ok (h', t') => (length (s_heap s) + 4 <= length h')%nat /\ t_roots t' <> t_roots (ev_to e)
              | Err _ => False
              end
  | None => False
  end.
Proof.
  vm_compute. split; [repeat constructor|discriminate].
Qed.

(** ** C47 *)
Lemma queue_witness : let s := snd (solve R0 10 p_9) in
  (2 < length (s_queue s))%nat /\ exists x s', dequeue R0 s = (Ok (Some x), s') /\ t_size (fst x) = 4.
Proof.
  cbv zeta. split; [vm_compute; repeat constructor|].
  assert (H : match fst (dequeue R0 (snd (solve R0 10 p_9))) with Ok (Some x) => t_size (fst x) = 4 | _ => False end) by (vm_compute; reflexivity).
  destruct (dequeue R0 (snd (solve R0 10 p_9))) as [[[x|]|] s']; try contradiction. exists x, s'. split; [reflexivity|exact H].
Qed.

(** ** C35, C36, C52: networks the search does not find *)
Lemma one_step h t o cost h' t' : sensible h t o -> priced h t o cost -> Forall (fun v => 0 < v) (taken h t o) ->
  apply_op h t o cost = Ok (h', t') -> leads h t h' t'.
Proof. intros S P V E. apply (leads_op _ _ h t o cost); [constructor|assumption..]. Qed.

Definition ok_or {A} (d : A) (r : res A) : A := match r with Ok a => a | Err _ => d end.
Definition start (p : problem) : heap Z * tree Z := initial_tree p.
(** both 1000 divided by 2 *)
Definition net_a : heap Z * tree Z := ok_or (start p_1000) (apply_op (fst (start p_1000)) (snd (start p_1000)) (ODivide 0 2) 1).
Definition net_b : heap Z * tree Z := ok_or (start p_1000) (apply_op (fst net_a) (snd net_a) (ODivide 2 2) 1).
Lemma net_a_ok : apply_op (fst (start p_1000)) (snd (start p_1000)) (ODivide 0 2) 1 = Ok (fst net_a, snd net_a).
Proof. vm_compute. reflexivity. Qed.
Lemma net_b_ok : apply_op (fst net_a) (snd net_a) (ODivide 2 2) 1 = Ok (fst net_b, snd net_b).
Proof. vm_compute. reflexivity. Qed.

Lemma all_nodes h t l (P : nat -> bool) : closed h t l = true -> forallb P l = true -> forall a, in_tree h t a -> P a = true.
Proof. intros C F a I. rewrite forallb_forall in F. apply F, (closed_in_tree h t l a C I). Qed.

Lemma division_not_found : exists p R fuel s h u, loaded p /\ realistic p R /\ o_stop R = None /\ solve R fuel p = (Ok tt, s) /\ s_solutions s = [] /\
  leads (fst (initial_tree p)) (snd (initial_tree p)) h u /\
  Permutation (t_source_values u) (p_target_integers p) /\
  (forall a, in_tree h u a -> value h a <= 1200).
Proof.
  exists p_1000, (real p_1000), 10%nat, (snd (solve (real p_1000) 10 p_1000)), (fst net_b), (snd net_b).
  split; [exact p_1000_loaded|]. split; [apply real_ok|]. split; [reflexivity|]. split; [vm_compute; reflexivity|]. split; [vm_compute; reflexivity|].
  split; [|split].
  - apply (leads_op _ _ (fst net_a) (snd net_a) (ODivide 2 2) 1); [|vm_compute| |vm_compute|exact net_b_ok].
    + apply (one_step _ _ (ODivide 0 2) 1); [vm_compute| |vm_compute|exact net_a_ok].
      * split; [repeat constructor|]. split; [discriminate|]. exists 500. reflexivity.
      * vm_compute. reflexivity.
      * repeat constructor.
    + split; [repeat constructor|]. split; [discriminate|]. exists 500. reflexivity.
    + vm_compute. reflexivity.
    + repeat constructor.
  - assert (E : t_source_values (snd net_b) = p_target_integers p_1000) by (vm_compute; reflexivity). rewrite E. apply Permutation_refl.
  - intros a I. apply Z.leb_le. revert a I. apply (all_nodes _ _ (seq 0 20)); vm_compute; reflexivity.
Qed.

(** 801 + 801, that is 400.5 + 400.5 *)
Definition net_c : heap Z * tree Z := ok_or (start p_801) (apply_op (fst (start p_801)) (snd (start p_801)) (OMerge [0; 1]%nat) 1).
Lemma net_c_ok : apply_op (fst (start p_801)) (snd (start p_801)) (OMerge [0; 1]%nat) 1 = Ok (fst net_c, snd net_c).
Proof. vm_compute. reflexivity. Qed.
Lemma merge_not_found : exists p R fuel s h u, loaded p /\ realistic p R /\ o_stop R = None /\ solve R fuel p = (Ok tt, s) /\ s_solutions s = [] /\
  leads (fst (initial_tree p)) (snd (initial_tree p)) h u /\
  t_source_values u = p_targets p /\
  (forall a, in_tree h u a -> value h a <= 1200 * p_unit_flow_ratio p).
Proof.
  exists p_801, (real p_801), 10%nat, (snd (solve (real p_801) 10 p_801)), (fst net_c), (snd net_c).
  split; [exact p_801_loaded|]. split; [apply real_ok|]. split; [reflexivity|]. split; [vm_compute; reflexivity|]. split; [vm_compute; reflexivity|].
  split; [|split].
  - apply (one_step _ _ (OMerge [0; 1]%nat) 1); [| |vm_compute; repeat constructor|exact net_c_ok].
    + vm_compute. split; [repeat constructor|]. split; [repeat constructor; cbn; intuition discriminate|]. intros i [<-|[<-|[]]]; repeat constructor.
    + vm_compute. reflexivity.
  - vm_compute. reflexivity.
  - intros a I. apply Z.leb_le. revert a I. apply (all_nodes _ _ (seq 0 20)); vm_compute; reflexivity.
Qed.

Lemma all_differ h (k : Z) (bs : list Z) (cs : list nat) : forallb (fun b => forallb (fun c => negb (value h c =? b * k)) cs) bs = true ->
  forall b c, In b bs -> In c cs -> value h c <> b * k.
Proof.
  intros H b c Hb Hc E. rewrite forallb_forall in H. specialize (H b Hb). cbv beta in H. rewrite forallb_forall in H. specialize (H c Hc).
  cbv beta in H. rewrite E, Z.eqb_refl in H. discriminate.
Qed.
(** an untagged extraction of 60 units, that is 30 *)
Lemma belt_speed_witness : exists p R fuel t a, loaded p /\ realistic p R /\
  let s := snd (solve R fuel p) in
  let h := s_heap s in
  In t (explored p (s_log s)) /\ in_tree h t a /\ n_expands (get h a) = [] /\
  length (children h a) = 2%nat /\ NoDup (map (value h) (children h a)) /\
  (forall b c, In b [60; 120; 270; 480; 780; 1200] -> In c (children h a) -> value h c <> b * p_unit_flow_ratio p).
Proof.
  exists p_121, (real p_121), 1%nat.
  set (t := ev_to (nth 0 (s_log (snd (solve (real p_121) 1 p_121))) (MkEvent (snd (initial_tree p_121)) (OMerge []) [] 0 (snd (initial_tree p_121))))).
  exists t, 1%nat. split; [exact p_121_loaded|]. split; [apply real_ok|]. cbv zeta.
  split; [apply in_or_app; left; apply in_map, nth_In; vm_compute; repeat constructor|].
  split; [apply in_tree_root; vm_compute; auto|]. split; [vm_compute; reflexivity|]. split; [vm_compute; reflexivity|].
  split; [vm_compute; repeat constructor; cbn; intuition discriminate|].
  apply all_differ. vm_compute. reflexivity.
Qed.

(** extracting 60 from 80 costs 1 *)
Definition net_d : heap Z * tree Z := ok_or (start p_80) (apply_op (fst (start p_80)) (snd (start p_80)) (OExtract 0 60) 1).
Lemma net_d_ok : apply_op (fst (start p_80)) (snd (start p_80)) (OExtract 0 60) 1 = Ok (fst net_d, snd net_d).
Proof. vm_compute. reflexivity. Qed.
Lemma smaller_not_found : exists p R fuel s h u, loaded p /\ realistic p R /\ o_stop R = None /\ solve R fuel p = (Ok tt, s) /\ s_solutions s <> [] /\
  leads (fst (initial_tree p)) (snd (initial_tree p)) h u /\
  t_source_values u = p_targets p /\ (forall a, in_tree h u a -> value h a <= 1200) /\
  t_size u < s_best_size s.
Proof.
  exists p_80, (real p_80), 20%nat, (snd (solve (real p_80) 20 p_80)), (fst net_d), (snd net_d).
  split; [exact p_80_loaded|]. split; [apply real_ok|]. split; [reflexivity|]. split; [vm_compute; reflexivity|]. split; [vm_compute; discriminate|].
  split; [|split; [|split]].
  - apply (one_step _ _ (OExtract 0 60) 1); [| |vm_compute; repeat constructor|exact net_d_ok].
    + vm_compute. split; [repeat constructor|]. split; [auto|discriminate].
    + vm_compute. reflexivity.
  - vm_compute. reflexivity.
  - intros a I. apply Z.leb_le. revert a I. apply (all_nodes _ _ (seq 0 20)); vm_compute; reflexivity.
  - vm_compute. reflexivity.
Qed.

(** ** C37 *)
(** "7 to 1 2 4" *)
Definition p_124 : problem := problem_of [55; 32; 116; 111; 32; 49; 32; 50; 32; 52].
Lemma p_124_loaded : loaded p_124.
Proof. apply loads_loaded. vm_compute. reflexivity. Qed.
Definition adjb (h : heap Z) (a b : nat) : bool := nat_mem b (children h a) || nat_mem a (children h b).
(** every node of the list is a root or a child of an earlier one *)
Fixpoint grounded (h : heap Z) (t : tree Z) (seen l : list nat) : bool :=
  match l with
  | [] => true
  | a :: r => (nat_mem a (t_roots t) || existsb (fun b => nat_mem a (children h b)) seen) && grounded h t (a :: seen) r
  end.
Lemma grounded_in h t l : forall seen, Forall (in_tree h t) seen -> grounded h t seen l = true -> Forall (in_tree h t) l.
Proof.
  induction l as [|a l IH]; intros seen S G; [constructor|]. cbn [grounded] in G. apply andb_true_iff in G. destruct G as [G1 G2].
  assert (A : in_tree h t a).
  { apply orb_true_iff in G1. destruct G1 as [G1|G1]; [apply in_tree_root, nat_mem_in, G1|].
    apply existsb_exists in G1. destruct G1 as (b & Ib & Eb). rewrite Forall_forall in S.
    apply (in_tree_child h t b a (S b Ib)), nat_mem_in, Eb. }
  constructor; [exact A|]. apply (IH (a :: seen)); [constructor; assumption|exact G2].
Qed.
Definition lists (h : heap Z) (t : tree Z) (l : list nat) : bool := closed h t l && grounded h t [] l.
Lemma lists_ok h t l : lists h t l = true -> forall a, in_tree h t a <-> In a l.
Proof.
  intros H a. apply andb_true_iff in H. destruct H as [C G]. split; [apply closed_in_tree, C|].
  pose proof (grounded_in h t l [] (Forall_nil _) G) as F. rewrite Forall_forall in F. apply F.
Qed.
Lemma adjb_iff h t l a b : lists h t l = true -> In a l -> In b l -> (adjacent h t a b <-> adjb h a b = true).
Proof.
  intros L Ia Ib. pose proof (lists_ok h t l L) as E. unfold adjacent, adjb. rewrite orb_true_iff, !nat_mem_in, !E. tauto.
Qed.
Definition iso_check (h : heap Z) (l m : list nat) (f g : nat -> nat) : bool :=
  forallb (fun a => nat_mem (f a) m && (g (f a) =? a)%nat && existsb (adjb h (f a)) m) l &&
  forallb (fun a => nat_mem (g a) l && (f (g a) =? a)%nat && existsb (adjb h (g a)) l) m &&
  forallb (fun a => forallb (fun b => Bool.eqb (adjb h a b) (adjb h (f a) (f b))) l) l.
Lemma iso_check_ok h t u l m f g : lists h t l = true -> lists h u m = true -> iso_check h l m f g = true -> isomorphic h t u.
Proof.
  intros L M C. apply andb_true_iff in C. destruct C as [C C3]. apply andb_true_iff in C. destruct C as [C1 C2].
  rewrite forallb_forall in C1, C2, C3.
  assert (IL : forall a, has_edge h t a -> In a l) by (intros a (b & Ha & _); apply (lists_ok h t l L), Ha).
  assert (IM : forall a, has_edge h u a -> In a m) by (intros a (b & Ha & _); apply (lists_ok h u m M), Ha).
  assert (D1 : forall a, In a l -> In (f a) m /\ g (f a) = a /\ has_edge h u (f a)).
  { intros a Ia. specialize (C1 a Ia). cbv beta in C1. apply andb_true_iff in C1. destruct C1 as [C1 E]. apply andb_true_iff in C1. destruct C1 as [I1 I2].
    apply nat_mem_in in I1. apply Nat.eqb_eq in I2. split; [exact I1|]. split; [exact I2|]. apply existsb_exists in E. destruct E as (b & Ib & Eb).
    exists b. apply (adjb_iff h u m (f a) b M I1 Ib), Eb. }
  assert (D2 : forall a, In a m -> In (g a) l /\ f (g a) = a /\ has_edge h t (g a)).
  { intros a Ia. specialize (C2 a Ia). cbv beta in C2. apply andb_true_iff in C2. destruct C2 as [C2 E]. apply andb_true_iff in C2. destruct C2 as [I1 I2].
    apply nat_mem_in in I1. apply Nat.eqb_eq in I2. split; [exact I1|]. split; [exact I2|]. apply existsb_exists in E. destruct E as (b & Ib & Eb).
    exists b. apply (adjb_iff h t l (g a) b L I1 Ib), Eb. }
  exists f, g. split; [|split].
  - intros a Ha. destruct (D1 a (IL a Ha)) as (_ & E & H). auto.
  - intros a Ha. destruct (D2 a (IM a Ha)) as (_ & E & H). auto.
  - intros a b Ha Hb. apply IL in Ha, Hb. specialize (C3 a Ha). cbv beta in C3. rewrite forallb_forall in C3. specialize (C3 b Hb). cbv beta in C3.
    apply Bool.eqb_prop in C3. rewrite (adjb_iff h t l a b L Ha Hb).
    rewrite (adjb_iff h u m (f a) (f b) M (proj1 (D1 a Ha)) (proj1 (D1 b Hb))). rewrite C3. reflexivity.
Qed.
(** a node of [u] carries [v], none of [t] does *)
Lemma not_same_network h t u l x v : lists h t l = true -> in_tree h u x -> value h x = v ->
  forallb (fun a => negb (value h a =? v)) l = true -> ~ same_network h t u.
Proof.
  intros L Ix Vx C (f & g & F & G & _). destruct (G x Ix) as [Gx Ex]. destruct (F _ Gx) as (_ & _ & Wx). rewrite Ex in Wx.
  rewrite forallb_forall in C. specialize (C (g x) (proj1 (lists_ok h t l L _) Gx)). cbv beta in C. rewrite <- Wx, Vx, Z.eqb_refl in C. discriminate.
Qed.
Lemma same_network_refl h t : same_network h t t.
Proof. exists (fun a => a), (fun a => a). split; [auto|]. split; [auto|]. tauto. Qed.
Definition to_dropped (a : nat) : nat :=
  match a with 18 => 36 | 19 => 38 | 20 => 37 | 21 => 39 | 22 => 40 | _ => 0 end%nat.
Definition of_dropped (a : nat) : nat :=
  match a with 36 => 18 | 38 => 19 | 37 => 20 | 39 => 21 | 40 => 22 | _ => 0 end%nat.
Lemma filter_sole {A} (f : A -> bool) l x : filter f l = [x] -> In x l.
Proof. intros E. apply (proj1 (filter_In f x l)). rewrite E. left. reflexivity. Qed.
Definition no_tree : tree Z := snd (initial_tree p_124).
Definition sole (v : Z) (h : heap Z) (t' : tree Z) (l : list nat) : bool :=
  lists h t' l && forallb (fun a => negb (value h a =? v)) l.
Fixpoint sole_all (v : Z) (h : heap Z) (ts : list (tree Z)) (ls : list (list nat)) : bool :=
  match ts, ls with
  | [], [] => true
  | t :: ts, l :: ls => sole v h t l && sole_all v h ts ls
  | _, _ => false
  end.
Lemma sole_all_in v h ts : forall ls t, sole_all v h ts ls = true -> In t ts -> exists l, sole v h t l = true.
Proof.
  induction ts as [|t0 ts IH]; intros ls t S I; [destruct I|]. destruct ls as [|l ls]; [discriminate|]. cbn in S.
  apply andb_true_iff in S. destruct S as [S1 S2]. destruct I as [->|I]; [exists l; exact S1|exact (IH ls t S2 I)].
Qed.
(** everything about the run that [different_dropped] needs, evaluated at once *)
Definition drop_check (r : res unit) (s : state) (targets : list Z) (i j : nat) (l m : list nat) (f g : nat -> nat) (x : nat) (v : Z) (ls : list (list nat)) : bool :=
  let h := s_heap s in
  let t := nth i (s_solutions s) no_tree in
  let u := nth j (map ev_to (s_log s)) no_tree in
  match r with Ok _ => true | Err _ => false end &&
  (i <? length (s_solutions s))%nat && (j <? length (map ev_to (s_log s)))%nat &&
  tuple_eqb (t_source_values u) targets && (t_size u =? s_best_size s) &&
  lists h t l && lists h u m && iso_check h l m f g &&
  nat_mem x m && (value h x =? v) &&
  sole_all v h (s_solutions s) ls.
Lemma drop_check_ok r s targets p i j l m f g x v ls : drop_check r s targets i j l m f g x v ls = true ->
  r = Ok tt /\ exists t u, In t (s_solutions s) /\
  In u (explored p (s_log s)) /\ t_source_values u = targets /\ t_size u = s_best_size s /\ ~ In u (s_solutions s) /\
  isomorphic (s_heap s) t u /\
  (forall t', In t' (s_solutions s) -> ~ same_network (s_heap s) t' u).
Proof.
  unfold drop_check. cbv zeta. set (t := nth i (s_solutions s) no_tree). set (u := nth j (map ev_to (s_log s)) no_tree). intros H.
  repeat match type of H with (_ && _)%bool = true => let K := fresh "K" in apply andb_true_iff in H; destruct H as [H K] end.
  split; [destruct r as [[]|]; [reflexivity|discriminate]|].
  apply Nat.ltb_lt in K8, K7. apply (@tuple_eqb_eq Z value_Z Z.eqb_eq) in K6. apply Z.eqb_eq in K5, K0. apply nat_mem_in in K1. exists t, u.
  assert (NS : forall t', In t' (s_solutions s) -> ~ same_network (s_heap s) t' u).
  { intros t' I'. destruct (sole_all_in _ _ _ _ _ K I') as (l' & S'). apply andb_true_iff in S'. destruct S' as [S1 S2].
    apply (not_same_network _ _ _ l' x v); try assumption. apply (lists_ok _ _ _ K3); assumption. }
  split; [apply nth_In, K8|]. split; [apply in_or_app; left; apply nth_In, K7|]. split; [exact K6|]. split; [exact K5|].
  split; [intros I; exact (NS u I (same_network_refl _ _))|]. split; [|exact NS].
  exact (iso_check_ok _ _ _ l m f g K4 K3 K2).
Qed.
Definition drop_run : bool := let '(r, s) := solve (real p_124) 60 p_124 in
  drop_check r s (p_targets p_124) 0 7 [18; 19; 20; 21; 22]%nat [36; 37; 38; 39; 40]%nat to_dropped of_dropped 37 6
    [[18; 19; 20; 21; 22]; [29; 30; 34; 31; 32; 33; 35]]%nat.
Lemma drop_run_true : drop_run = true.
Proof. vm_compute. reflexivity. Qed.
Lemma different_dropped : exists p R fuel s t u, loaded p /\ realistic p R /\ o_stop R = None /\ solve R fuel p = (Ok tt, s) /\
  In t (s_solutions s) /\
  In u (explored p (s_log s)) /\ t_source_values u = p_targets p /\ t_size u = s_best_size s /\ ~ In u (s_solutions s) /\
  isomorphic (s_heap s) t u /\
  (forall t', In t' (s_solutions s) -> ~ same_network (s_heap s) t' u).
Proof.
  pose proof drop_run_true as H. unfold drop_run in H. exists p_124, (real p_124), 60%nat.
  destruct (solve (real p_124) 60 p_124) as [r s]. destruct (drop_check_ok r s _ p_124 _ _ _ _ _ _ _ _ _ H) as (-> & t & u & C).
  exists s, t, u. split; [exact p_124_loaded|]. split; [apply real_ok|]. split; [reflexivity|]. split; [reflexivity|exact C].
Qed.

Lemma c36_unit_independent_refuted_lemma : 
  (exists p R fuel s h u,
    loaded p /\ realistic p R /\ o_stop R = None /\ solve R fuel p = (Ok tt, s) /\ s_solutions s = [] /\
    leads (fst (initial_tree p)) (snd (initial_tree p)) h u /\
    t_source_values u = p_targets p /\
    (forall a, in_tree h u a -> value h a <= 1200 * p_unit_flow_ratio p)) /\
  (exists p R fuel t a, loaded p /\ realistic p R /\
    let s := snd (solve R fuel p) in
    let h := s_heap s in
    In t (explored p (s_log s)) /\ in_tree h t a /\ n_expands (get h a) = [] /\
    length (children h a) = 2%nat /\ NoDup (map (value h) (children h a)) /\
    (forall b c, In b [60; 120; 270; 480; 780; 1200] -> In c (children h a) -> value h c <> b * p_unit_flow_ratio p)).
Proof. exact (conj merge_not_found belt_speed_witness). Qed.

Lemma c67_example_lemma : let s := snd (solve R0 10 p_9) in loaded p_9 /\
  existsb (fun e => match ev_op e with OExtract _ c => c =? 4 | _ => false end) (s_log s) = true /\
  existsb (fun n => match n_expands n with [TExtract 4] => n_value n =? 9 | _ => false end) (s_heap s) = true.
Proof. split; [exact p_9_loaded|vm_compute; auto]. Qed.
