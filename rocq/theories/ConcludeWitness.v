(** Concrete runs: examples and counterexamples for attaching and saving. *)
From Verif Require Import Base BaseLemmas Cost Utils Fractions FractionsProofs Load LoadSpec LoadProofs Tree TreeSpec HeapLemmas Search SearchSpec SearchWitness Real RealSpec RealProofs Expand
  Conclude ConcludeSpec ConcludeProofs SaveProofs.
From Coq Require Import QArith Qcanon.
Open Scope Z_scope.

Definition saved_keys (r : list saved * res (heap Qc)) : list (nat * bool) := map (fun f => (sv_index f, sv_expanded f)) (fst r).
Definition outcome (r : list saved * res (heap Qc)) : option exn := match snd r with Ok _ => None | Err e => Some e end.

(** ** C41: a loop-back over the belt limit *)
(** "1010 to 202 808" *)
Definition p_1010 : problem := problem_of [49; 48; 49; 48; 32; 116; 111; 32; 50; 48; 50; 32; 56; 48; 56].
Lemma p_1010_loaded : loaded p_1010.
Proof. apply loads_loaded. vm_compute. reflexivity. Qed.
(** stopped at the 210th read of self.solving *)
Definition R_stop : oracle := real_oracle p_1010 (Some 210%nat) (fun _ => None).

Lemma c41_run k : let s := snd (solve R_stop 3 p_1010) in
  length (s_solutions s) = 1%nat /\ outcome (conclude (10 + k) (fun _ => true) p_1010 s) = Some TypeError.
Proof. vm_compute. auto. Qed.
Lemma c41_refuted_lemma : ~ (forall p R fuel, loaded p -> realistic p R -> exists n0, forall n, (n0 <= n)%nat -> exists h, snd (conclude n (fun _ => true) p (snd (solve R fuel p))) = Ok h).
Proof.
  intros H. destruct (H p_1010 R_stop 3%nat p_1010_loaded (real_realistic _ _ _)) as (n0 & Hn). destruct (Hn (10 + n0)%nat ltac:(lia)) as (h & E). pose proof (proj2 (c41_run n0)) as X. cbv zeta in X. unfold outcome in X. rewrite E in X. discriminate.
Qed.

(** ** C43: a target group shared by two solutions *)
Section Diverge.
Variable V : Type.
Context `{Value V}.
Lemma children_set_levels l (h : heap V) k a : n_children (get (set_levels k l h) a) = n_children (get h a).
Proof.
  unfold set_levels. revert h. induction l as [|x l IH]; intros h; [reflexivity|]. cbn [fold_left]. rewrite IH. destruct (Nat.eq_dec a x) as [->|Ne]; [|rewrite get_upd_other by congruence; reflexivity].
  destruct (le_lt_dec (length h) x) as [B|B]; [unfold get; rewrite !nth_overflow; [reflexivity|exact B|rewrite upd_length; exact B]|]. rewrite get_upd_same by exact B. reflexivity.
Qed.
(** each node of S has a child in S: once one of them is waiting, there always is one *)
Lemma attach_loop_diverges (S : nat -> Prop) n : forall (h : heap V) t q,
  (forall a, S a -> exists b, In b (n_children (get h a)) /\ S b) -> (forall a, In a q -> n_children (get h a) <> []) -> (exists a, In a q /\ S a) ->
  attach_loop n h t q = Err OutOfFuel.
Proof.
  induction n as [|n IH]; intros h t q C NE (a & Ia & Sa); (destruct q as [|p q]; [destruct Ia|]); [reflexivity|]. cbn [attach_loop]. unfold tree_add.
  destruct (n_children (get h p)) as [|f cs] eqn:E; [destruct (NE p (or_introl eq_refl) E)|]. cbn [bind]. rewrite <- E. apply IH.
  - intros x Sx. destruct (C x Sx) as (b & Ib & Sb). exists b. rewrite children_set_levels. auto.
  - intros x I. rewrite children_set_levels. apply in_app_or in I. destruct I as [I|I]; [apply NE; right; exact I|]. apply filter_In in I. destruct I as [_ T]. rewrite children_set_levels in T. intros X. rewrite X in T. discriminate.
  - destruct Ia as [<-|Ia].
    + destruct (C p Sa) as (b & Ib & Sb). exists b. split; [|exact Sb]. apply in_or_app. right. apply filter_In. split; [exact Ib|]. rewrite children_set_levels. destruct (C b Sb) as (c & Ic & _). destruct (n_children (get h b)); [destruct Ic|reflexivity].
    + exists a. split; [|exact Sa]. apply in_or_app. left. exact Ia.
Qed.
(** what the loop of attach_leaves starts with *)
Definition adopt_all (h : heap V) (t : tree V) (leaves : list nat) : heap V := fold_left (fun h p => adopt h (fst p) (snd p)) (combine (t_sources t) leaves) h.
Definition waiting (h : heap V) (t : tree V) : list nat := filter (fun a => negb (length (n_children (get h a)) =? 0)%nat) (t_sources t).
Lemma attach_start n (h : heap V) t leaves q : (Z.of_nat (length leaves) =? t_n_sources t) = true ->
  waiting (adopt_all h t leaves) t = q -> attach_leaves n h t leaves = attach_loop n (adopt_all h t leaves) t q.
Proof. intros L <-. unfold attach_leaves. rewrite L. reflexivity. Qed.
End Diverge.

(** "30 to 1 1 1 1 1 5 20" *)
Definition p_30 : problem := problem_of [51; 48; 32; 116; 111; 32; 49; 32; 49; 32; 49; 32; 49; 32; 49; 32; 53; 32; 50; 48].
Lemma p_30_loaded : loaded p_30.
Proof. apply loads_loaded. vm_compute. reflexivity. Qed.
Definition s_30 : state := snd (solve (real p_30) 50 p_30).
Notation start_h := (map node_frac (fst (plant (s_heap s_30) (p_leaves p_30)))).
Notation start_l := (snd (plant (s_heap s_30) (p_leaves p_30))).
(** saving one solution *)
Definition save_one (n : nat) (h : heap Qc) (leaves : list nat) (t : tree Qc) : option (heap Qc) :=
  match attach_leaves n h t leaves with
  | Ok (h, t) => match tree_save n 0 h t with (_, Ok h) => Some h | _ => None end
  | _ => None
  end.
Lemma save_two n h leaves t u h1 : save_one n h leaves t = Some h1 -> attach_leaves n h1 u leaves = Err OutOfFuel ->
  let r := save_all n (fun _ => true) 0 h leaves [t; u] in saved_keys r = [(0%nat, false); (0%nat, true)] /\ outcome r = Some OutOfFuel.
Proof.
  unfold save_one. intros F A. cbn [save_all negb]. destruct (attach_leaves n h t leaves) as [[h0 t1]|e]; [|discriminate].
  unfold tree_save, node_save in *. destruct (expand_roots n (set_levels 0 (t_roots t1) h0) (t_roots t1)) as [g|e]; [|discriminate]. injection F as F. rewrite F, A. split; reflexivity.
Qed.
Definition first_30 : tree Qc := hd (tree_frac no_tree) (map tree_frac (s_solutions s_30)).
Definition heap_30 : heap Qc := match save_one 20 start_h start_l first_30 with Some h => h | None => [] end.
Lemma first_30_any k : save_one (20 + k) start_h start_l first_30 = Some heap_30.
Proof. vm_compute. reflexivity. Qed.

Definition second_30 : tree Qc := match map tree_frac (s_solutions s_30) with _ :: u :: _ => u | _ => tree_frac no_tree end.
Lemma attach_30 n : attach_leaves n heap_30 second_30 start_l = Err OutOfFuel.
Proof.
  assert (L : (Z.of_nat (length start_l) =? t_n_sources second_30) = true) by (vm_compute; reflexivity).
  assert (Q : waiting Qc (adopt_all Qc heap_30 second_30 start_l) second_30 = [12%nat]) by (vm_compute; reflexivity).
  rewrite (attach_start Qc n heap_30 second_30 start_l [12%nat] L Q). clear L Q.
  assert (C : n_children (get (adopt_all Qc heap_30 second_30 start_l) 12) = [17; 23]%nat /\ n_children (get (adopt_all Qc heap_30 second_30 start_l) 17) = [25; 26]%nat /\ n_children (get (adopt_all Qc heap_30 second_30 start_l) 25) = [18; 19; 17]%nat) by (vm_compute; auto).
  revert C. generalize (adopt_all Qc heap_30 second_30 start_l). intros h (C1 & C2 & C3). apply attach_loop_diverges with (S := fun a => In a [12; 17; 25]%nat).
  - intros a [<-|[<-|[<-|[]]]]; [exists 17%nat; rewrite C1|exists 25%nat; rewrite C2|exists 17%nat; rewrite C3]; cbn; auto.
  - intros a [<-|[]]. rewrite C1. discriminate.
  - exists 12%nat. split; left; reflexivity.
Qed.

Definition alone (k : nat) (t : tree Z) : list (nat * bool) * option exn :=
  let r := save_all (20 + k) (fun _ => true) 0 start_h start_l [tree_frac t] in (saved_keys r, outcome r).
Lemma alone_30 k : map (alone k) (s_solutions s_30) = [([(0%nat, false); (0%nat, true)], None); ([(0%nat, false); (0%nat, true)], None)].
Proof. vm_compute. reflexivity. Qed.
Lemma alone_each k t : In t (s_solutions s_30) ->
  saved_keys (save_all (20 + k) (fun _ => true) 0 start_h start_l [tree_frac t]) = [(0%nat, false); (0%nat, true)] /\
  outcome (save_all (20 + k) (fun _ => true) 0 start_h start_l [tree_frac t]) = None.
Proof.
  intros I. apply (in_map (alone k)) in I. rewrite (alone_30 k) in I. unfold alone in I. revert I. generalize (save_all (20 + k) (fun _ => true) 0 start_h start_l [tree_frac t]).
  intros r [E|[E|[]]]; injection E as E1 E2; auto.
Qed.
(** each of the two solutions can be saved alone, but after the first the second
    attach_leaves does not end *)
Lemma c43_run k : length (s_solutions s_30) = 2%nat /\
  (forall t, In t (s_solutions s_30) -> saved_keys (save_all (20 + k) (fun _ => true) 0 start_h start_l [tree_frac t]) = [(0%nat, false); (0%nat, true)]) /\
  saved_keys (conclude (20 + k) (fun _ => true) p_30 s_30) = [(0%nat, false); (0%nat, true)] /\ outcome (conclude (20 + k) (fun _ => true) p_30 s_30) = Some OutOfFuel.
Proof.
  split; [vm_compute; reflexivity|]. split.
  - intros t I. apply (alone_each k t I).
  - assert (ES : map tree_frac (s_solutions s_30) = [first_30; second_30]) by (vm_compute; reflexivity).
    assert (EC : (s_solutions_count s_30 >? 1) = true) by (vm_compute; reflexivity).
    pose proof (save_two _ _ _ _ _ _ (first_30_any k) (attach_30 (20 + k))) as X. cbv zeta in X.  unfold conclude. rewrite EC, ES. clear EC ES. revert X. generalize first_30 second_30. destruct (plant (s_heap s_30) (p_leaves p_30)) as [h leaves]. cbn [fst snd]. intros t u X. exact X.
Qed.
Definition saved_whenever_possible : Prop := forall p R fuel i, loaded p -> realistic p R -> let s := snd (solve R fuel p) in (i < length (s_solutions s))%nat ->
  (forall t, In t (s_solutions s) -> exists n0, forall n, (n0 <= n)%nat -> let (h, leaves) := plant (s_heap s) (p_leaves p) in exists h', snd (save_all n (fun _ => true) 0 (map node_frac h) leaves [tree_frac t]) = Ok h') ->
  exists n0, forall n, (n0 <= n)%nat -> exists f, In f (fst (conclude n (fun _ => true) p s)) /\ sv_index f = i.
Lemma c43_refute p R fuel s : loaded p -> realistic p R -> snd (solve R fuel p) = s -> length (s_solutions s) = 2%nat ->
  (forall k t, In t (s_solutions s) -> outcome (save_all (20 + k) (fun _ => true) 0 (map node_frac (fst (plant (s_heap s) (p_leaves p)))) (snd (plant (s_heap s) (p_leaves p))) [tree_frac t]) = None) ->
  (forall k, saved_keys (conclude (20 + k) (fun _ => true) p s) = [(0%nat, false); (0%nat, true)]) -> ~ saved_whenever_possible.
Proof.
  intros L RE ES Len Al Run H. specialize (H p R fuel 1%nat L RE). rewrite ES in H. cbv zeta in H. destruct H as (n0 & Hn).
  - rewrite Len. lia.
  - intros t I. exists 20%nat. intros n B. specialize (Al (n - 20)%nat t I). replace (20 + (n - 20))%nat with n in Al by lia.
    destruct (plant (s_heap s) (p_leaves p)) as [h leaves]. cbn [fst snd] in Al. unfold outcome in Al. destruct (snd (save_all n _ _ _ _ _)) as [h'|e]; [exists h'; reflexivity|discriminate].
  - destruct (Hn (20 + n0)%nat ltac:(lia)) as (f & If & Ei). specialize (Run n0). unfold saved_keys in Run.
    apply (in_map (fun f => (sv_index f, sv_expanded f))) in If. rewrite Run, Ei in If. destruct If as [[=]|[[=]|[]]].
Qed.
Lemma alone_planted k t : In t (s_solutions s_30) ->
  outcome (save_all (20 + k) (fun _ => true) 0 (map node_frac (fst (plant (s_heap s_30) (p_leaves p_30)))) (snd (plant (s_heap s_30) (p_leaves p_30))) [tree_frac t]) = None.
Proof. intros I. pose proof (proj2 (alone_each k t I)) as X. exact X. Qed.
Lemma s_30_eq : snd (solve (real p_30) 50 p_30) = s_30.
Proof. unfold s_30. reflexivity. Qed.
Lemma c43_refuted_lemma : ~ saved_whenever_possible.
Proof.
  apply (c43_refute p_30 (real p_30) 50 s_30 p_30_loaded (real_ok _) s_30_eq); [exact (proj1 (c43_run 0))|exact alone_planted|]. intros k. exact (proj1 (proj2 (proj2 (c43_run k)))).
Qed.

(** ** C43: examples *)
(** "15 to 5 10" *)
Definition p_15 : problem := problem_of [49; 53; 32; 116; 111; 32; 53; 32; 49; 48].
Lemma p_15_loaded : loaded p_15.
Proof. apply loads_loaded. vm_compute. reflexivity. Qed.
Lemma c43_first_example : loaded p_30 /\ length (s_solutions (snd (solve (real p_30) 50 p_30))) = 2%nat /\
  p_sources p_30 = [30] /\ p_targets p_30 = [10; 20] /\ p_target_integers p_30 = [1; 1; 1; 1; 1; 5; 20].
Proof. split; [exact p_30_loaded|]. vm_compute. auto. Qed.
Lemma c43_distinct_example : loaded p_15 /\ NoDup (p_target_integers p_15) /\ p_target_integers p_15 = [5; 10] /\
  map key (fst (conclude 20 (fun _ => true) p_15 (snd (solve (real p_15) 50 p_15)))) = [(0%nat, false); (0%nat, true); (1%nat, false); (1%nat, true)].
Proof.
  split; [exact p_15_loaded|]. split; [|vm_compute; auto]. assert (E : p_target_integers p_15 = [5; 10]) by (vm_compute; reflexivity). rewrite E. repeat constructor; cbn; intuition discriminate.
Qed.

(** ** C44 *)
Lemma linked_within h root (l : list nat) : In root l -> forallb (fun a => forallb (fun b => nat_in b l) (n_children (get h a) ++ n_parents (get h a))) l = true -> forall a, linked h root a -> In a l.
Proof.
  intros I C a L. induction L as [|a b L IH Nb]; [exact I|]. rewrite forallb_forall in C. specialize (C a IH). rewrite forallb_forall in C. apply nat_in_true, C, in_or_app. exact Nb.
Qed.
(** a splitter of 10 into two belts of 5, merged again *)
Definition diamond : heap Qc :=
  [ MkNode (frac_of_Z 10) 7 (Some 0) fl_new [] [1; 2]%nat [] 0; MkNode (frac_of_Z 5) 8 (Some 1) fl_new [0%nat] [3%nat] [] 0;
    MkNode (frac_of_Z 5) 9 (Some 1) fl_new [0%nat] [3%nat] [] 0; MkNode (frac_of_Z 10) 5 (Some 2) fl_new [1; 2]%nat [] [TMerge 3] 0 ].
Lemma c44_example : (forall a, linked diamond 0 a -> (a < length diamond)%nat) /\
  (forall a b, linked diamond 0 a -> linked diamond 0 b -> n_id (get diamond a) = n_id (get diamond b) -> a = b) /\
  (forall a, linked diamond 0 a -> (0 <= n_value (get diamond a))%Qc) /\ linked diamond 0 3.
Proof.
  assert (W : forall a, linked diamond 0 a -> In a [0; 1; 2; 3]%nat) by (apply linked_within; [left; reflexivity|vm_compute; reflexivity]).
  split; [intros a L; apply W in L; cbn in L; cbn [length diamond]; lia|]. split.
  - intros a b La Lb. apply W in La, Lb. destruct La as [<-|[<-|[<-|[<-|[]]]]], Lb as [<-|[<-|[<-|[<-|[]]]]]; cbn; congruence.
  - split; [intros a L; apply W in L; destruct L as [<-|[<-|[<-|[<-|[]]]]]; vm_compute; discriminate|].
    apply (linked_next _ _ 1%nat); [apply (linked_next _ _ 0%nat); [constructor|left; cbn; auto]|left; cbn; auto].
Qed.

(** "2 6 to 1 1 3 3": two unconnected splitters *)
Definition p_26 : problem := problem_of [50; 32; 54; 32; 116; 111; 32; 49; 32; 49; 32; 51; 32; 51].
Lemma p_26_loaded : loaded p_26.
Proof. apply loads_loaded. vm_compute. reflexivity. Qed.
(** what is read back from the file of the first root *)
Definition read_back (n : nat) (f : saved) : res (heap Qc * list nat) := do data <- wrap n (sv_heap f) (hd O (sv_roots f)); unwrap data.
Definition whole_network_rebuilt : Prop := forall p R fuel f, loaded p -> realistic p R -> exists n0, forall n, (n0 <= n)%nat ->
  In f (fst (conclude n (fun _ => true) p (snd (solve R fuel p)))) ->
  exists h' roots m, read_back n f = Ok (h', roots) /\
    forall r a, In r (sv_roots f) -> linked (sv_heap f) r a -> (m a < length h')%nat /\ same_node m (sv_heap f) a h' (m a).
Definition file_26 : saved := hd (MkSaved 0 false [] []) (fst (conclude 10 (fun _ => true) p_26 (snd (solve (real p_26) 5 p_26)))).
Lemma file_26_saved k : hd_error (fst (conclude (10 + k) (fun _ => true) p_26 (snd (solve (real p_26) 5 p_26)))) = Some file_26.
Proof. vm_compute. reflexivity. Qed.
Definition ids_of (r : res (heap Qc * list nat)) : list nat := match r with Ok (h, _) => map (fun n => n_id n) h | Err _ => [] end.
Lemma file_26_read k : forallb (fun i => negb (i =? n_id (get (sv_heap file_26) 1))%nat) (ids_of (read_back (10 + k) file_26)) = true.
Proof. vm_compute. reflexivity. Qed.
Lemma file_26_roots : nat_in 1 (sv_roots file_26) = true.
Proof. vm_compute. reflexivity. Qed.
Lemma c44_refute p R fuel f : loaded p -> realistic p R -> (forall k, hd_error (fst (conclude (10 + k) (fun _ => true) p (snd (solve R fuel p)))) = Some f) ->
  (forall k, forallb (fun i => negb (i =? n_id (get (sv_heap f) 1))%nat) (ids_of (read_back (10 + k) f)) = true) -> nat_in 1 (sv_roots f) = true -> ~ whole_network_rebuilt.
Proof.
  intros L RE Sv Rd Rt H. apply nat_in_true in Rt. destruct (H p R fuel f L RE) as (n0 & Hn). specialize (Sv n0). specialize (Rd n0). specialize (Hn (10 + n0)%nat ltac:(lia)).
  destruct (fst (conclude (10 + n0) (fun _ => true) p (snd (solve R fuel p)))) as [|g files]; [discriminate|]. injection Sv as ->. destruct (Hn (or_introl eq_refl)) as (h' & roots & m & E & A). rewrite E in Rd. cbn [ids_of] in Rd.
  destruct (A 1%nat 1%nat Rt (linked_here _ _)) as [B Sm]. destruct Sm as (_ & Ei & _). rewrite forallb_forall in Rd.
  specialize (Rd (n_id (get h' (m 1%nat)))). rewrite Ei, Nat.eqb_refl in Rd. discriminate Rd. rewrite <- Ei. apply in_map. apply nth_In. exact B.
Qed.
Lemma c44_refuted_lemma : ~ whole_network_rebuilt.
Proof. exact (c44_refute p_26 (real p_26) 5 file_26 p_26_loaded (real_ok _) file_26_saved file_26_read file_26_roots). Qed.
