(** The splitters and mergers of a drawing are those the size of its tree counts. *)
From Verif Require Import Base BaseLemmas Cost CostSpec CostProofs Utils Fractions FractionsProofs Load LoadSpec LoadProofs Tree TreeSpec HeapLemmas Search SearchSpec SearchInv SearchProofs SearchWitness Real RealSpec RealProofs
  Expand Conclude SizeSpec SizeProofs ConcludeProofs FracProofs SavedSpec SavedProofs FlowSpec MachineSpec FlowProofs FlowMerge FlowTree FlowOps FlowWalk FlowStart FlowFinal FlowWitness MachineProofs.
From Coq Require Import QArith Qcanon.
Open Scope Z_scope.

Lemma c70_lemma : forall p R fuel t, loaded p ->
  let s := snd (solve R fuel p) in
  In t (s_solutions s) ->
  let (h, leaves) := plant (s_heap s) (p_leaves p) in
  exists h' t',
    (forall n, (length h <= n)%nat -> attach_leaves n (map node_frac h) (tree_frac t) leaves = Ok (map node_frac h', tree_frac t')) /\
    ((forall a, in_tree h' t' a -> ~ overloaded h' a) -> (forall a, in_tree h' t' a -> ~ torn h' a) ->
      exists n0 g nodes ns,
      (forall n, (n0 <= n)%nat -> expand_roots n (map node_frac (set_levels 0 (t_roots t') h')) (t_roots t') = Ok g) /\
      NoDup nodes /\ (forall x, In x nodes <-> reached (fun x => n_children (get g x)) (t_roots t') x) /\ lists_tree h' t' ns /\
      Z.of_nat (machines (fun x => n_children (get g x)) (t_roots t') nodes) + Z.of_nat (length (filter (spared h' (t_roots t')) ns)) = t_size t + p_size_offset p).
Proof.
  intros p R fuel t L s I. pose proof (attached_solutions p R fuel t L I) as A. fold s in A.
  pose proof (iv_sols _ _ _ _ _ _ _ _ (proj1 (SearchProofs.run_inv p R fuel L))) as SL. rewrite Forall_forall in SL. fold s in SL. destruct (SL t I) as (IE & _).
  destruct (c69_listed_lemma p R fuel t L IE) as (ns0 & L0). fold s in L0. pose proof (c69_size_lemma p R fuel t ns0 L IE L0) as SZ. fold s in SZ.
  destruct (plant (s_heap s) (p_leaves p)) as [h leaves]. destruct A as (h' & t' & A & B & C & D & _ & _ & _ & _ & F4 & Pr). exists h', t'. split; [exact A|]. intros Ov Nt.
  assert (Sm : forall a, in_tree h' t' a -> (a < length (map node_frac h'))%nat /\ get (map node_frac h') a = node_frac (get h' a)) by (intros a Ia; apply (get_frac_in h' a (net_alloc _ _ _ B a Ia))).
  destruct (network_works h' t' (p_sources p) _ B C D Sm Ov Nt F4) as (n0 & g & Eg & _ & nodes & T & Bt & W & _ & _ & Mc). destruct (Pr ns0 L0) as (ns & Ln & En).
  exists n0, g, nodes, ns. split; [intros n Hn; rewrite <- set_levels_frac; apply (Eg n Hn)|]. split; [apply (wk_distinct _ _ _ _ _ _ W)|]. split; [apply (wk_nodes _ _ _ _ _ _ W)|]. split; [exact Ln|].
  change (fun x => n_children (get g x)) with (ki g). rewrite (Mc ns Ln). rewrite (machines_price h' t' (p_sources p) _ B D Sm C Ov ns Ln), En, SZ. reflexivity.
Qed.

Lemma c71_partial_lemma : forall p R fuel t, loaded p ->
  let s := snd (solve R fuel p) in
  In t (s_solutions s) ->
  let (h, leaves) := plant (s_heap s) (p_leaves p) in
  exists h' t',
    (forall n, (length h <= n)%nat -> attach_leaves n (map node_frac h) (tree_frac t) leaves = Ok (map node_frac h', tree_frac t')) /\
    ((forall a, in_tree h' t' a -> ~ overloaded h' a) -> (forall a, in_tree h' t' a -> ~ torn h' a) ->
      exists n0 g nodes,
      (forall n, (n0 <= n)%nat -> expand_roots n (map node_frac (set_levels 0 (t_roots t') h')) (t_roots t') = Ok g) /\
      NoDup nodes /\ (forall x, In x nodes <-> reached (fun x => n_children (get g x)) (t_roots t') x) /\
      Z.of_nat (machines (fun x => n_children (get g x)) (t_roots t') nodes) <= t_size t + p_size_offset p /\
      ((forall a, in_tree h' t' a -> spared h' (t_roots t') a = false) ->
        Z.of_nat (machines (fun x => n_children (get g x)) (t_roots t') nodes) = t_size t + p_size_offset p)).
Proof.
  intros p R fuel t L s I. pose proof (c70_lemma p R fuel t L I) as A. fold s in A. destruct (plant (s_heap s) (p_leaves p)) as [h leaves]. destruct A as (h' & t' & A & B). exists h', t'. split; [exact A|]. intros Ov Nt.
  destruct (B Ov Nt) as (n0 & g & nodes & ns & Eg & ND & IN & (_ & LT) & E). exists n0, g, nodes. split; [exact Eg|]. split; [exact ND|]. split; [exact IN|]. split; [lia|]. intros Sp. rewrite <- E.
  assert (X : filter (spared h' (t_roots t')) ns = []); [|rewrite X; cbn; lia].
  assert (Sp' : forall a, In a ns -> spared h' (t_roots t') a = false) by (intros a Ia; apply Sp, LT, Ia). clear - Sp'. induction ns as [|a ns IH]; [reflexivity|]. cbn [filter]. rewrite (Sp' a (or_introl eq_refl)). apply IH. intros b Ib. apply Sp'. right. exact Ib.
Qed.

(** ** 2 3 to 1 1 1 1 1 *)
Definition p_2_3 : problem := problem_of [50; 32; 51; 32; 116; 111; 32; 49; 32; 49; 32; 49; 32; 49; 32; 49].
Notation R_2_3 := (real_oracle p_2_3 None (fun _ => None)).
Notation done_2_3 := (conclude 60 (fun _ => true) p_2_3 (snd (solve R_2_3 50 p_2_3))).
Definition closed (g : heap Qc) (roots : list nat) : bool :=
  let l := drawn g roots in
  forallb (fun x => forallb (fun c => if in_dec Nat.eq_dec c l then true else false) (n_children (get g x))) l &&
  forallb (fun r => if in_dec Nat.eq_dec r l then true else false) roots.
Lemma drawn_reached g roots : closed g roots = true -> NoDup roots -> NoDup (drawn g roots) /\ forall x, In x (drawn g roots) <-> reached (fun x => n_children (get g x)) roots x.
Proof.
  intros E ND. split.
  - unfold drawn. cbn [Nat.iter nat_rect]. unfold spread at 1. apply NoDup_nodup.
  - intros x. split.
    + unfold drawn. assert (X : forall k y, In y (Nat.iter k (spread g) roots) -> reached (fun x => n_children (get g x)) roots y); [|apply X].
      induction k as [|k IH]; intros y I; [apply reached_root, I|]. cbn [Nat.iter nat_rect] in I. unfold spread at 1 in I. apply nodup_In, in_app_or in I. destruct I as [I|I]; [apply IH, I|].
      apply in_flat_map in I. destruct I as (z & Iz & Iy). apply (reached_out _ _ z y); [apply IH, Iz|exact Iy].
    + apply andb_true_iff in E. destruct E as [E1 E2]. rewrite forallb_forall in E1, E2. induction 1 as [r I|y z _ IH I].
      * specialize (E2 r I). cbn beta in E2. destruct (in_dec Nat.eq_dec r (drawn g roots)); [assumption|discriminate].
      * specialize (E1 y IH). cbn beta in E1. rewrite forallb_forall in E1. specialize (E1 z I). cbn beta in E1. destruct (in_dec Nat.eq_dec z (drawn g roots)); [assumption|discriminate].
Qed.
Lemma p_2_3_loaded : loaded p_2_3.
Proof. apply loads_loaded. vm_compute. reflexivity. Qed.
Lemma saved_pair (x : list saved * res (heap Qc)) rs : map (fun f => (sv_index f, sv_expanded f, sv_roots f)) (fst x) = [(0%nat, false, rs); (0%nat, true, rs)] -> match snd x with Ok _ => true | _ => false end = true ->
  exists f h', x = ([f; MkSaved 0 true (second (fst x)) rs], Ok h').
Proof.
  destruct x as [fs r]. cbn [fst snd]. intros E E'. destruct fs as [|f [|[i e h rs'] [|? ?]]]; try discriminate. destruct r as [h'|]; [|discriminate]. cbn in E. injection E as _ _ _ -> -> ->. exists f, h'. reflexivity.
Qed.
Lemma done_2_3_saved : exists f h', done_2_3 = ([f; MkSaved 0 true (second (fst done_2_3)) [2%nat; 3%nat]], Ok h').
Proof. apply saved_pair; vm_compute; reflexivity. Qed.
Lemma done_2_3_closed : closed (second (fst done_2_3)) [2%nat; 3%nat] = true.
Proof. vm_compute. reflexivity. Qed.
Lemma done_2_3_count : machines (fun x => n_children (get (second (fst done_2_3)) x)) [2%nat; 3%nat] (drawn (second (fst done_2_3)) [2%nat; 3%nat]) = 4%nat.
Proof. vm_compute. reflexivity. Qed.
Lemma one_sized (l : list (tree Z)) k n : match l with [t] => t_size t + k =? n | _ => false end = true -> exists t, l = [t] /\ t_size t + k = n.
Proof. destruct l as [|t [|? ?]]; try discriminate. intros E. exists t. split; [reflexivity|apply Z.eqb_eq, E]. Qed.
Lemma done_2_3_size : exists t, s_solutions (snd (solve R_2_3 50 p_2_3)) = [t] /\ t_size t + p_size_offset p_2_3 = 5.
Proof. apply one_sized. vm_compute. reflexivity. Qed.
Lemma c71_refuted_lemma : exists p R fuel n t f g roots nodes h', loaded p /\ realistic p R /\ s_solutions (snd (solve R fuel p)) = [t] /\
  conclude n (fun _ => true) p (snd (solve R fuel p)) = ([f; MkSaved 0 true g roots], Ok h') /\
  NoDup nodes /\ (forall x, In x nodes <-> reached (fun x => n_children (get g x)) roots x) /\
  Z.of_nat (machines (fun x => n_children (get g x)) roots nodes) = 4 /\ t_size t + p_size_offset p = 5.
Proof.
  destruct done_2_3_size as (t & ES & E). destruct done_2_3_saved as (f & h' & EC).
  destruct (drawn_reached (second (fst done_2_3)) [2%nat; 3%nat] done_2_3_closed) as [ND IN]; [repeat constructor; cbn; lia|].
  exists p_2_3, R_2_3, 50%nat, 60%nat, t, f, (second (fst done_2_3)), [2%nat; 3%nat], (drawn (second (fst done_2_3)) [2%nat; 3%nat]), h'.
  rewrite done_2_3_count. exact (conj p_2_3_loaded (conj (real_realistic p_2_3 None (fun _ => None)) (conj ES (conj EC (conj ND (conj IN (conj eq_refl E))))))).
Qed.

(** ** 7 to 2 5 *)
Notation run_7 := (snd (solve R0 50 p_7)).
Notation saved_7 := (fst (conclude 60 (fun _ => true) p_7 run_7)).
Definition first_counts (sols : list (tree Z)) (files : list saved) (k n : Z) : bool :=
  match sols, files with
  | t :: _, _ :: MkSaved 0 true g roots :: _ => (t_size t + k =? n) && (Z.of_nat (machines (fun x => n_children (get g x)) roots (drawn g roots)) =? n) && closed g roots && match roots with [_] => true | _ => false end
  | _, _ => false
  end.
Lemma first_counted sols files k n : first_counts sols files k n = true ->
  exists t rest f g roots fs nodes, sols = t :: rest /\ files = f :: MkSaved 0 true g roots :: fs /\ t_size t + k = n /\
    NoDup nodes /\ (forall x, In x nodes <-> reached (fun x => n_children (get g x)) roots x) /\ Z.of_nat (machines (fun x => n_children (get g x)) roots nodes) = n.
Proof.
  intros E. unfold first_counts in E. destruct sols as [|t rest]; [discriminate|]. destruct files as [|f [|[[|i] [|] g roots] fs]]; try discriminate.
  apply andb_true_iff in E. destruct E as [E Er]. apply andb_true_iff in E. destruct E as [E Ec]. apply andb_true_iff in E. destruct E as [Es Em].
  destruct (drawn_reached g roots Ec) as [ND IN]; [destruct roots as [|r [|? ?]]; try discriminate; repeat constructor; intros []|].
  exists t, rest, f, g, roots, fs, (drawn g roots). split; [reflexivity|]. split; [reflexivity|]. split; [apply Z.eqb_eq, Es|]. split; [exact ND|]. split; [exact IN|apply Z.eqb_eq, Em].
Qed.
Lemma drawn_7 : first_counts (s_solutions run_7) saved_7 (p_size_offset p_7) 6 = true.
Proof. vm_compute. reflexivity. Qed.
Lemma c70_example_lemma : loaded p_7 /\ (forall t a, In t (s_solutions run_7) -> in_tree (s_heap run_7) t a -> ~ overloaded (s_heap run_7) a /\ ~ torn (s_heap run_7) a) /\
  exists t rest f g roots files nodes, s_solutions run_7 = t :: rest /\ saved_7 = f :: MkSaved 0 true g roots :: files /\ t_size t + p_size_offset p_7 = 6 /\
    NoDup nodes /\ (forall x, In x nodes <-> reached (fun x => n_children (get g x)) roots x) /\ Z.of_nat (machines (fun x => n_children (get g x)) roots nodes) = 6.
Proof.
  destruct p_7_example as (A & _ & Z7 & _ & _). split; [exact A|]. split; [intros t a It Ia; destruct (c65_small_lemma p_7 R0 50%nat A ltac:(lia) t a It Ia) as (X & Y & _); split; [exact X|exact Y]|].
  exact (first_counted _ _ _ _ drawn_7).
Qed.
